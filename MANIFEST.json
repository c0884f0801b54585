{
 "claims": [
  {
   "property": "C01",
   "status": "proved",
   "theorems": [
    "C01_pairing"
   ],
   "note": "for every history of optimize/eval_and_add/add_new_sample calls"
  },
  {
   "property": "C02",
   "status": "proved",
   "theorems": [
    "C02_rejected_evaluation",
    "C02_add_new_sample",
    "C02_optimize_exception"
   ],
   "note": ""
  },
  {
   "property": "C03",
   "status": "proved",
   "theorems": [
    "C03_exact_budget",
    "C03_termination"
   ],
   "note": "int overflow of the counters not modelled"
  },
  {
   "property": "C04",
   "status": "proved",
   "theorems": [
    "C04_resume",
    "C04_total_iterations"
   ],
   "note": ""
  },
  {
   "property": "C05",
   "status": "proved",
   "theorems": [
    "C05_model_in_sync"
   ],
   "note": "for every model class obeying the data contract"
  },
  {
   "property": "C06",
   "status": "proved",
   "theorems": [
    "C06_hp_schedule"
   ],
   "note": ""
  },
  {
   "property": "C07",
   "status": "proved",
   "theorems": [
    "C07_stop_consults_in_order",
    "C07_stop_is_disjunction",
    "C07_returns_when_criteria_hold"
   ],
   "note": ""
  },
  {
   "property": "C08",
   "status": "proved",
   "theorems": [
    "C08_incumbent",
    "C08_empty_is_undefined"
   ],
   "note": ""
  },
  {
   "property": "C10",
   "status": "partial",
   "theorems": [
    "C10_lhs_stratified",
    "C10_float",
    "C10_half_open_refuted"
   ],
   "note": "over R as stated; in binary64 (n <= 2^31) every coordinate is in [0,1] and, one point per stratum, within 2^-50 of its stratum; a coordinate may be exactly 1 (refuted: rounding of the largest draw)"
  },
  {
   "property": "C11",
   "status": "partial",
   "theorems": [
    "C11_grid_points",
    "C11_grid_points_evaluated",
    "C11_grid_values_partial",
    "C11_covers_the_upper_bound_refuted"
   ],
   "note": "the full statement is false in binary64: for bins=9 (and many others) the accumulated last value exceeds 1 and the upper bound of every dimension is never sampled (bins^dim points instead of (bins+1)^dim); proved: exact exploration of the product grid and bins or bins+1 values per dimension, k-th within 2^-28 of k/bins, all in [0,1]"
  },
  {
   "property": "C12",
   "status": "proved",
   "theorems": [
    "C12_random_sampling",
    "C12_random_sampling_grid",
    "C12_random_sampling_draws",
    "C12_random_grid_draws"
   ],
   "note": "random draws are arbitrary values in the documented range"
  },
  {
   "property": "C13",
   "status": "proved",
   "theorems": [
    "C13_rprop_in_box",
    "C13_rprop_box_or_nan",
    "C13_adam_box_or_nan",
    "C13_gradient_ascent_box_or_nan",
    "C13_adam_in_box",
    "C13_gradient_ascent_in_box",
    "C13_clamp_nearest"
   ],
   "note": "binary64; for Rprop NaN coordinates are excluded whatever the gradient; for Adam and GradientAscent when the rates are in [0,1) and the learning rate and the gradients in the box are numbers of size at most 2^400, for any number of iterations"
  },
  {
   "property": "C14",
   "status": "proved",
   "theorems": [
    "C14_rprop_returns_best",
    "C14_rprop_evaluations",
    "C14_rprop_never_worse_than_start"
   ],
   "note": ""
  },
  {
   "property": "C15",
   "status": "partial",
   "theorems": [
    "C15_grid_search_best",
    "C15_grid_search_defined",
    "C15_some_good_value_suffices_refuted"
   ],
   "note": "the full statement is false: a single grid line without any value above -DBL_MAX makes the objective be evaluated at an uninitialised vector even if other points are fine; exact condition for a defined result proved (iff)"
  },
  {
   "property": "C16",
   "status": "partial",
   "theorems": [
    "C16_grid_search_values_partial",
    "C16_result_on_grid_partial",
    "C16_stays_in_box_refuted"
   ],
   "note": "the full statement is false in binary64 (bins=10 evaluates and may return 1.0999999999999999); proved bounds for all bins <= 2^20"
  },
  {
   "property": "C17",
   "status": "proved",
   "theorems": [
    "C17_par_max_best",
    "C17_schedule_independent",
    "C17_sequential_agrees",
    "C17_argument_schedule_independent_refuted"
   ],
   "note": ""
  },
  {
   "property": "C18",
   "status": "proved",
   "theorems": [
    "C18_repeater_best",
    "C18_starts_within_epsilon"
   ],
   "note": ""
  },
  {
   "property": "C19",
   "status": "proved",
   "theorems": [
    "C19_chained_composes",
    "C19_chained_bounded",
    "C19_chained_never_worse"
   ],
   "note": ""
  },
  {
   "property": "C09",
   "status": "proved",
   "theorems": [
    "C09_logs_list_every_sample",
    "C09_best_logs_are_running_maxima",
    "C09_logs_after_a_reset_refuted"
   ],
   "note": "any history in which only the first call may reset, exceptions included; number formatting not modelled; a later reset=true call repeats the header (refutation)"
  },
  {
   "property": "C44",
   "status": "proved",
   "theorems": [
    "C44_pareto_set",
    "C44_schedule_independent",
    "C44_sort_2objs_refuted"
   ],
   "note": "objective vectors of one length >= 2 without NaN (otherwise the comparator of std::sort is not a strict weak order); std::sort modelled by its contract; the unused sort_2objs is refuted"
  },
  {
   "property": "C45",
   "status": "proved",
   "theorems": [
    "C45_dominate_flag",
    "C45_dominance_strict_partial_order"
   ],
   "note": ""
  },
  {
   "property": "C36",
   "status": "proved",
   "theorems": [
    "C36_matrix_round_trip",
    "C36_list_round_trip",
    "C36_empty_list_refuted"
   ],
   "note": "byte-level model, every 64-bit pattern; an empty list is written but cannot be loaded (outside the statement)"
  },
  {
   "property": "C37",
   "status": "partial",
   "theorems": [
    "C37_truncation_is_reported_refuted",
    "C37_truncated_matrix_never_reported",
    "C37_negative_sizes_reported",
    "C37_negative_count_reported"
   ],
   "note": "the statement is false: every strict prefix of the file of a non-empty matrix is accepted silently and yields another matrix"
  },
  {
   "property": "C38",
   "status": "proved",
   "theorems": [
    "C38_list_structure",
    "C38_matrix_structure",
    "C38_lossless",
    "C38_close",
    "C38_lossless_refuted",
    "C38_empty_matrix_refuted",
    "C38_empty_list_refuted"
   ],
   "note": "printing and std::stod are parameters; matrices with at least one coefficient and non-empty lists; counter-examples otherwise. C38_close and C38_lossless_refuted assume that printing gives a nearest decimal with p digits and that std::stod rounds to nearest; with p <= 16 (Eigen::FullPrecision is 15 or 16) no reader can recover all doubles"
  },
  {
   "property": "C48",
   "status": "proved",
   "theorems": [
    "C48_param_recreates_the_store",
    "C48_seeds_are_recovered",
    "C48_generate_injective"
   ],
   "note": "any number of words and mixing rounds >= 1; the Mersenne twister behind it is not modelled"
  },
  {
   "property": "C20",
   "status": "proved",
   "theorems": [
    "C20_kernel_values",
    "C20_initial_variance",
    "C20_noise_term",
    "C20_noise_value"
   ],
   "note": "over R; sigma_sq > 0, l > 0"
  },
  {
   "property": "C21",
   "status": "proved",
   "theorems": [
    "C21_get_after_set",
    "C21_set_after_get",
    "C21_parameters_determine_kernel",
    "C21_sizes",
    "C21_initial_parameters"
   ],
   "note": "over R; when the noise is optimised its initial value has to be positive (log(sqrt(0)) otherwise)"
  },
  {
   "property": "C22",
   "status": "proved",
   "theorems": [
    "C22_gradient"
   ],
   "note": "over R"
  },
  {
   "property": "C23",
   "status": "proved",
   "theorems": [
    "C23_gram_positive_definite"
   ],
   "note": "over R, all four kernels; positive semi-definiteness of the Matern kernels proved as a scale mixture of Gaussians"
  },
  {
   "property": "C24",
   "status": "proved",
   "theorems": [
    "C24_valid_histories_succeed",
    "C24_exact_posterior",
    "C24_prior_without_data",
    "C24_limbo_gp"
   ],
   "note": "over R, any kernel/mean obeying the contracts KernOK/MeanOK (all kernels and means of limbo do), any history of calls"
  },
  {
   "property": "C25",
   "status": "proved",
   "theorems": [
    "C25_final_data_only",
    "C25_incremental_equals_batch"
   ],
   "note": "over R"
  },
  {
   "property": "C26",
   "status": "proved",
   "theorems": [
    "C26_order_irrelevant"
   ],
   "note": "over R"
  },
  {
   "property": "C27",
   "status": "proved",
   "theorems": [
    "C27_variance_bounds",
    "C27_more_data_less_variance"
   ],
   "note": "over R"
  },
  {
   "property": "C28",
   "status": "proved",
   "theorems": [
    "C28_interpolation"
   ],
   "note": "over R"
  },
  {
   "property": "C29",
   "status": "partial",
   "theorems": [
    "C29_cached_inverse_partial",
    "C29_stale_inverse_after_set_params_refuted",
    "C29_stale_inverse_after_load_refuted"
   ],
   "note": "proved for every history of compute, add_sample, set_h_params, recompute and compute_inv_kernel that ends with an up-to-date kernel matrix; refuted (with witnesses) after set_h_params without recomputation and after load(archive, false)"
  },
  {
   "property": "C33",
   "status": "proved",
   "theorems": [
    "C33_ard_initially_the_wrapped_mean",
    "C33_get_after_set",
    "C33_parameters_determine_mean",
    "C33_sizes",
    "C33_gradient",
    "C33_data_mean_is_the_average"
   ],
   "note": "over R, for NullFunction, Constant, Data and FunctionARD nested to any depth"
  },
  {
   "property": "C39",
   "status": "proved",
   "theorems": [
    "C39_load_save_predicts_the_same",
    "C39_stays_equivalent",
    "C39_limbo_gp",
    "C39_likelihood_after_load_refuted"
   ],
   "note": "predictions agree after load with and without recomputation, into any target object, and after any further valid history (starting with add_sample or compute when loaded without recomputation); finding: after load(archive, false) into a new object compute_log_lik works on matrices of incompatible sizes"
  },
  {
   "property": "C30",
   "status": "proved",
   "theorems": [
    "C30_log_likelihood_value",
    "C30_kernel_gradient",
    "C30_mean_gradient",
    "C30_limbo_gp",
    "C30_two_outputs_refuted"
   ],
   "note": "over R; the density is stated with the determinant (Laplace expansion) and inverse of the noisy kernel matrix; derivative of the value actually returned after setting one parameter and recomputing; with several outputs the returned value is not the joint log density (log determinant and constant counted once)"
  },
  {
   "property": "C31",
   "status": "partial",
   "theorems": [
    "C31_leave_one_out",
    "C31_loo_gradient",
    "C31_limbo_gp",
    "C31_limbo_gradient",
    "C31_data_mean_refuted"
   ],
   "note": "over R; value proved for every mean that ignores the observations, any number of outputs and samples; refuted for mean::Data, whose prior mean contains the left-out observation; the gradient is the derivative of the returned score for every mean"
  },
  {
   "property": "C32",
   "status": "proved",
   "theorems": [
    "C32_kernel_lf_opt",
    "C32_mean_lf_opt",
    "C32_kernel_mean_lf_opt",
    "C32_kernel_loo_opt",
    "C32_limbo_gp",
    "C32_float_never_lower",
    "C32_float_defined"
   ],
   "note": "over R for the whole stack (GP, likelihood, gradient, Rprop or any optimizer that does not worsen its start); in binary64 for an arbitrary GP object, NaN included. The starting GP must be up to date (otherwise compute_log_lik() of the start is that of stale matrices)"
  },
  {
   "property": "C40",
   "status": "partial",
   "theorems": [
    "C40_ucb_value_partial",
    "C40_monotone",
    "C40_monotone_float",
    "C40_unexplored_refuted"
   ],
   "note": "value and monotonicity proved (reals; monotonicity also for binary64 results without overflow); the claim that an unexplored point ranks at least as high as an explored one with the same mean is refuted"
  },
  {
   "property": "C41",
   "status": "partial",
   "theorems": [
    "C41_weight_partial",
    "C41_iteration_zero_refuted",
    "C41_nan_refuted",
    "C41_iterations_used"
   ],
   "note": "for iterations >= 1 the weight is the documented one, positive and increasing; at iteration 0, which every call of optimize() uses first, weight and value are NaN (refuted)"
  },
  {
   "property": "C42",
   "status": "proved",
   "theorems": [
    "C42_expected_improvement",
    "C42_limbo_gp",
    "ei_is_expectation"
   ],
   "note": "over the reals; erfc is any function equal to its defining integral (shown to exist)"
  },
  {
   "property": "C43",
   "status": "partial",
   "theorems": [
    "C43_current_incumbent_partial",
    "C43_stale_incumbent_refuted",
    "C43_threads_refuted",
    "C43_threads_after_first_call"
   ],
   "note": "proved when every change of the model adds samples (the use made by the optimizer); refuted when the model is retrained on as many samples, and for concurrent first calls"
  },
  {
   "property": "C49",
   "status": "partial",
   "theorems": [
    "C49_no_observations",
    "C49_stops_iff_partial",
    "C49_nan_refuted"
   ],
   "note": "proved unless a value is NaN; with a NaN prediction the criterion stops (refuted)"
  },
  {
   "property": "C34",
   "status": "partial",
   "theorems": [
    "C34_independent_outputs",
    "C34_exact_posterior_partial",
    "C34_incremental_equals_batch_partial",
    "settled_dataless",
    "settled_computed",
    "C34_compute_schedules",
    "C34_add_schedules",
    "C34_recompute_schedules",
    "C34_query_schedules",
    "C34_data_mean_refuted",
    "C34_recompute_refuted"
   ],
   "note": "proved for every mean function that ignores the observations, every history and every schedule; refuted for mean::Data (add_sample differs from compute) and for recompute(true,false), which leaves the predictions stale"
  },
  {
   "property": "C35",
   "status": "proved",
   "theorems": [
    "C35_pairs_kept",
    "C35_small_unchanged",
    "C35_thins",
    "C35_exact_posterior_of_kept",
    "C35_infinite_distance_refuted",
    "C35_dimension_refuted",
    "C35_schedule_refuted"
   ],
   "note": "any data, any schedule of the density loop, any uninitialised diagonal; distances at most 2^900 and dimension <= max_points (otherwise points are kept beyond the bound, or the sort runs out of range: refutations); predictions are the exact posterior (over R) of the kept pairs"
  },
  {
   "property": "C46",
   "status": "partial",
   "theorems": [
    "C46_best_observation",
    "C46_best_sample_partial",
    "C46_training_partial",
    "C46_models_partial",
    "C46_counters",
    "C46_stale_training",
    "C46_best_sample_refuted",
    "C46_training_refuted",
    "C46_training_filtered_refuted",
    "C46_signs_refuted",
    "C46_no_constraints_refuted",
    "C46_no_init_refuted"
   ],
   "note": "best_observation() is right for 0/1 constraints; best_sample() and the training values are proved right only when every observation is feasible (and, for training, the statistics query the best observation at every iteration); otherwise refuted with runs of the optimizer: the model is trained with values of other samples, best_sample() is not where best_observation() was measured. The constraint model is trained with the constraint values of all samples when the statistics query the best observation at every iteration. The iteration counters and the iterations at which the hyper-parameters are optimised (every hp_period-th) are right in every run; the objective model's training set is not the data, though, as above"
  },
  {
   "property": "C47",
   "status": "proved",
   "theorems": [
    "C47_weights",
    "C47_value",
    "C47_monotone",
    "C47_strictly_monotone",
    "C47_monotone_float",
    "C47_weights_float",
    "C47_model",
    "C47_zero_draw_refuted"
   ],
   "note": "weights and value over R for any order of summation; monotonicity also in binary64 (values up to 2^900); a draw of zeros only gives NaN weights (refutation); GPParego as a whole predicts with the exact posterior of the data scalarised with the last draw"
  },
  {
   "property": "C50",
   "status": "partial",
   "theorems": [
    "C50_leaves_tile_the_cube",
    "C50_split",
    "C50_no_undefined_behaviour",
    "C50_second_call_refuted"
   ],
   "note": "box coordinates over R, values in binary64; any first call (or call with reset): the leaves tile the cube, sides are balanced powers of 1/3, points are centres; no out-of-range level before 1000 iterations; refuted for a second call without reset, which adds an overlapping root box"
  },
  {
   "property": "C51",
   "status": "partial",
   "theorems": [
    "C51_no_point_evaluated_twice",
    "C51_every_evaluation_is_recorded",
    "C51_iteration_budget",
    "C51_sampled_value_refuted",
    "C51_second_call_refuted"
   ],
   "note": "a first call asks the objective exactly for the new samples, in order, records its answers and counts them; one iteration makes at most 3 evaluations per level; a second call without reset records the old answer at the centre instead of the new one (refuted); no point is evaluated twice and the flags are right; the stored value is refuted: a leaf labelled by the model and evaluated later keeps its label"
  },
  {
   "property": "C52",
   "status": "proved",
   "theorems": [
    "C52_parallel_lf_opt"
   ],
   "note": "over R, KernelLFOpt with Rprop as the inner optimizer; samples present and nothing left to recompute"
  },
  {
   "property": "C53",
   "status": "partial",
   "theorems": [
    "C53_load_predicts_the_same",
    "C53_load_recompute",
    "C53_load_recompute_predicts_the_same_partial",
    "C53_load_recompute_refuted"
   ],
   "note": "archives hold exact values (C37/C38 treat the formats); loading without recomputation predicts the same; loading with recomputation is equivalent, under all further calls, to recompute(true,true) on the original, which predicts the same when the subtracted means are current; refuted for mean::Data with added samples"
  },
  {
   "property": "C54",
   "status": "partial",
   "theorems": [
    "C54_eci_partial",
    "C54_certain_constraint_refuted"
   ],
   "note": "over R; proved while the constraint model has no samples or a standard deviation of at least 1e-10; below, the code takes the constraint as satisfied, refuted by an observed violation"
  },
  {
   "property": "C55",
   "status": "partial",
   "theorems": [
    "C55_ucb_imgpo",
    "C55_default_is_finite",
    "C55_label_is_the_bound_partial",
    "C55_label_refuted",
    "C55_not_a_number_refuted"
   ],
   "note": "over R; value, lower bound and monotonicity proved whenever 12 nu <= (pi M)^2, in particular for nu <= 3/4 and M >= 1; NaN otherwise (refuted with nu = 0.95); the stored label is the bound for nu = 0.05 only (refuted for nu = 0.5)"
  },
  {
   "property": "C56",
   "status": "partial",
   "theorems": [
    "C56_ehvi2d_partial",
    "C56_value_unique",
    "C56_acqui_partial",
    "C56_acqui_refuted",
    "C56_constants_refuted",
    "C56_zero_deviation_refuted",
    "C56_below_reference_refuted"
   ],
   "note": "over R; proved for positive deviations with the two constants of ehvi_consts.h read as sqrt 2 and 1/sqrt(2 pi) (with the ten digits given the value is not exact: refuted); acqui::Ehvi hands variances to a function of standard deviations (refuted; correct for variances 1); zero deviations level with a front point give 0 and points below the reference point too large a value (refuted)"
  },
  {
   "property": "C57",
   "status": "partial",
   "theorems": [
    "C57_filter",
    "C57_hypervolume",
    "C57_stat",
    "vol_unique",
    "vol_box",
    "C57_one_objective_refuted",
    "C57_below_reference_refuted"
   ],
   "note": "over R; the volume (Cavalieri, any dimension) is proved for two objectives or more and points not below the reference point; with one objective the code returns the square, and points below the reference point make the value too small (refuted)"
  },
  {
   "property": "C58",
   "status": "partial",
   "theorems": [
    "C58_ehvi_partial",
    "C58_nsbo_partial",
    "C58_pareto_front_stat",
    "C58_no_samples_refuted",
    "C58_nsbo_without_sferes_refuted",
    "C58_final_front_refuted",
    "C58_fallback_refuted"
   ],
   "note": "every iteration of Ehvi::optimize, and of Nsbo::optimize with an NSGA-II that returns a point, is right in every execution once there is a sample; refuted: no initial sample (out-of-range read), Nsbo without sferes (division by zero), pareto_data() after the return lacks the last sample, a NaN acquisition value makes a one-dimensional zero vector the new sample"
  },
  {
   "property": "C59",
   "status": "partial",
   "theorems": [
    "C59_nlopt_partial",
    "C59_nlopt_in_box",
    "C59_nlopt_outside",
    "C59_nlopt_outcome",
    "C59_cmaes",
    "C59_cmaes_unbounded",
    "C59_cmaes_configuration",
    "C59_cmaes_zero_tolerance_refuted",
    "C59_nlopt_bounds_stay_refuted",
    "C59_nlopt_other_dimension_refuted",
    "C59_nlopt_box_refuted"
   ],
   "note": "NLOpt and libcmaes are arbitrary functions meeting a stated contract; proved for calls of one dimension until a bounded call is followed by an unbounded one, and for starts inside the box; refuted: the bounds of a bounded call stay for later unbounded calls of the object, a call with another dimension throws or returns its start unchanged, a bounded call from outside the box returns a point outside the box; a fun_tolerance of 0 enables the CMA-ES criterion documented as enabled by values above 0"
  },
  {
   "property": "C60",
   "status": "partial",
   "theorems": [
    "C60_in_the_box_partial",
    "C60_default_optimizers",
    "C60_default_gradient_optimizers",
    "C60_grid_powers",
    "C60_grid_search_refuted",
    "C60_repeater_nlopt_refuted",
    "C60_adam_refuted"
   ],
   "note": "proved for all five initialisation functions and every stack of RandomPoint, GridSearch (with bins whose values stay below 1, such as the default or any power of two), Rprop, Adam and GradientAscent (gradients of size at most 2^400), NLOpt, CMA-ES, Chained and ParallelRepeater of an optimizer that needs no start in the box; includes the default acquisition optimizers; refuted for GridSearch with 10 bins, ParallelRepeater over NLOpt, and Adam with an infinite gradient (NaN)"
  },
  {
   "property": "C61",
   "status": "proved",
   "theorems": [
    "C61_exact_posterior_in_every_run",
    "C61_limbo",
    "C61_parameters_without_learning",
    "C61_reset_keeps_parameters"
   ],
   "note": "the GP computes over the real numbers; objective and acquisition optimizer return finite vectors of the announced sizes; composition of C05, C24, C25 and C32. C61_reset_keeps_parameters: after optimize(reset = true) the GP keeps the hyper-parameters learned before the reset"
  },
  {
   "property": "C62",
   "status": "proved",
   "theorems": [
    "C62_model_logs",
    "C62_predictions_precede_observations",
    "C62_console",
    "C62_gp_files"
   ],
   "note": "number formatting and file-system failures are not modelled; the grid of gp_<n>.dat has the values of C11, so its upper bound may be missing; gp_likelihood.hpp calls a member that does not exist and cannot be instantiated"
  },
  {
   "property": "C63",
   "status": "partial",
   "theorems": [
    "C63_posterior",
    "C63_mu_sigma",
    "C63_mu_sigma_refuted",
    "C63_add_first_refuted",
    "C63_outputs_refuted",
    "C63_constant_refuted",
    "C63_start_refuted",
    "C63_optimize_refuted"
   ],
   "note": "posterior, bounds of the variance and effect of every history proved for query and predict, real arithmetic, one output, at least two distinct values per coordinate, mean functions as in C24. Not true of the program, and refuted: mu(v)/sigma(v) for inputs of more than one dimension, add_sample before compute, several outputs, constant coordinates, the start point when m > 1 and dim > 1, optimize_hyperparams on its own (stale factors, negative variance)"
  },
  {
   "property": "C64",
   "status": "partial",
   "theorems": [
    "C64_value",
    "C64_likelihood_partial",
    "C64_odd_refuted"
   ],
   "note": "proved when n - m is even (n samples, m pseudo-inputs); when it is odd, the value is proved to be the log-density plus half the logarithm of the noise variance, because (n - _m) / 2 is an integer division (C64_odd_refuted). Real arithmetic; scope as in C63"
  },
  {
   "property": "C65",
   "status": "proved",
   "theorems": [
    "C65_gradient",
    "C65_history",
    "C65_odd_refuted"
   ],
   "note": "over R; scope as in C63 (one output). The gradient belongs to the log-density; the value returned with it is the log-density only when n - m is even, so for odd n - m the last component is not the derivative of that value (it is proved to differ by exactly 1/2; C65_odd_refuted)"
  },
  {
   "property": "C66",
   "status": "partial",
   "theorems": [
    "C66_solutions",
    "C66_accuracy",
    "C66_branin_partial",
    "C66_branin_refuted",
    "C66_camel_partial",
    "C66_camel_refuted"
   ],
   "note": "over R, M_PI read as pi. Sphere, Ellipsoid, Rastrigin, GoldsteinPrice: the declared solutions are exactly the minimisers, accuracy is exact. BraninNormalized: the three minimisers are determined; the third declared row is a rounding of the third (accuracy right up to 1e-10; refuted exactly). SixHumpCamel: the declared points are roundings (optimal and accurate up to 1e-7; refuted exactly: a better point has a larger accuracy value). Hartmann3 and Hartmann6 are not modelled"
  },
  {
   "property": "C67",
   "status": "proved",
   "theorems": [
    "C67_scalarised_posterior",
    "C67_limbo",
    "C67_add_after_load"
   ],
   "note": "real arithmetic for model and scalarisation; C67_limbo instantiates the kernels and means of the library with Rprop for the parameters. C67_add_after_load: a GPParego that was saved and loaded cannot take another sample (size mismatch), since the raw observations are not saved"
  },
  {
   "property": "C68",
   "status": "partial",
   "theorems": [
    "C68_posterior",
    "C68_exact_posterior_partial",
    "C68_lost_pairs",
    "C68_recompute_refuted",
    "C68_different_samples_refuted"
   ],
   "note": "proved: every history succeeds, every output keeps min(p, n) pairs obtained by thinning and is predicted with their posterior (exact for mean functions that ignore the observations; in general with the mean values subtracted at the time of the call); reals, distances at most 2^900, dimension at most p. Refuted: observations() keeps all n observations while samples() lists the min(p, n) kept ones, so recompute(true, _) violates the size assertion (out-of-range read without assertions) for every history with n > p; ties are broken by the schedule, so outputs may keep different samples"
  },
  {
   "property": "C69",
   "status": "proved",
   "theorems": [
    "C69_factorisation",
    "C69_mean",
    "C69_mean_finite",
    "C69_variance",
    "C69_jitter",
    "C69_default_noise",
    "C69_exact_pd_refuted",
    "C69_absorbed_noise_refuted"
   ],
   "note": "binary64 (Flocq), every sum of products evaluated by an arbitrary expression tree with at most m operations. Proved when the noise is at least (n+1)(err+eps), err = 7(m+4) 2^-53 D, D = bound of the kernel values, eps = their error: no breakdown, finite factor, backward error err+eps; bounds for the variance (noise at least 2(n+2)(err+eps)) and the mean: C69_mean in terms of the computed alpha when it is finite; C69_mean_finite shows it finite and bounds the error by exact quantities alone when the noise is at least 6(n+2)(err+eps), the kernel magnitude between 2^-100 and 2^100 and the observations below 2^200. The jitter 1e-8 of the library suffices for 1000 samples of a kernel of magnitude 2. The condition on the noise cannot be dropped (refuted): a matrix of doubles that is exactly positive definite for which the factorisation stops and the mean is NaN; the default noise 0.01 absorbed by a signal variance 2^48"
  },
  {
   "property": "C70",
   "status": "proved",
   "theorems": [
    "C70_kernels",
    "C70_factor",
    "C70_variance",
    "C70_mean",
    "C70_tiny_scale_refuted"
   ],
   "note": "binary64 (Flocq); std::exp is a parameter with an error contract (met by the correctly rounded exponential, C70_libm_example). The exact side is the kernel model over R of C20-C23, evaluated at the values of the doubles, so C70 also relates the two models. C70_tiny_scale_refuted: outside the range, a length scale below 2^-538 makes k(x, x) a NaN for Exp and MaternFiveHalves. Not covered: SquaredExpARD with Params::kernel_squared_exp_ard::k() > 0; the rounding of exp/log in set_params (the parameters are the doubles stored in _l, _sf2, _ell, _noise)."
  },
  {
   "property": "C71",
   "status": "proved",
   "theorems": [
    "C71_logdet",
    "C71_loglik"
   ],
   "note": "binary64 (Flocq) with the model of C69/C70; the logarithm is a relation with an error contract (met by the correctly rounded one, C71_libm_example), because Eigen's vectorised log and std::log differ. long double is a parameter (precision >= 53, least exponent <= -1074); its overflow is left out. Not covered: the gradient of the likelihood in double precision, other noise ranges for (b)."
  },
  {
   "property": "C72",
   "status": "proved",
   "theorems": [
    "C72_outcomes",
    "C72_terminates",
    "C72_lock_free",
    "C72_each",
    "C72_distances",
    "C72_most_dense",
    "C72_collect"
   ],
   "note": "Memory is sequentially consistent (the C++ guarantee for race-free programs). Objects such as an inner GP are one location. push_back of tbb::concurrent_vector is taken to be atomic. The iterations start no threads of their own. The models of C34, C35, C44, C52 and C58, which run the iterations in an arbitrary order, are justified by this."
  },
  {
   "property": "C73",
   "status": "proved",
   "theorems": [
    "C73_variance_floor",
    "C73_ucb",
    "C73_ucb_choice",
    "C73_ei",
    "C73_ei_choice"
   ],
   "note": "Assumes of libm: exp within 2^-52 relative, erfc within 2^-50 absolute, pow(x,2) within 2^-52 relative (plus underflow). One output, FirstElem aggregator. Binary64 with rounding to nearest, hyper-parameters and data in the range of C70. The cached incumbent is the one of the current samples (C43)."
  },
  {
   "property": "C74",
   "status": "proved",
   "theorems": [
    "C74_modulus",
    "C74_ucb",
    "C74_ei",
    "C74_regret"
   ],
   "note": "Constant mean function (Constant, NullFunction), no ARD factor A, one output, FirstElem aggregator; libm contracts of C73. q may leave the box by up to one grid step (C16). The acquisition function is evaluated one point at a time, each evaluation with any rounding order; an infinite confidence parameter is not covered."
  },
  {
   "property": "C75",
   "status": "partial",
   "theorems": [
    "C75_variance_kept_partial",
    "C75_variance_kept_refuted",
    "C75_flush",
    "C75_ei_zero",
    "C75_ucb_mean",
    "C75_uncertainty_lost",
    "C75_ei_samples_origin"
   ],
   "note": "The full statement is refuted. Between the two ranges (exact variance above 2^-52 but below 1.1e-6) nothing is proved: the error bound of C70 is absolute. Range and libm contracts of C73."
  },
  {
   "property": "C76",
   "status": "proved",
   "theorems": [
    "C76_centred",
    "C76_prediction",
    "C76_life"
   ],
   "note": "One output. No ARD factor A. The kernel and the mean function keep their parameters (no hyper-parameter optimisation). exp is any function with relative error 2^-50 (C70). FunctionARD mean is not covered."
  },
  {
   "property": "C77",
   "status": "proved",
   "theorems": [
    "C77_ucb",
    "C77_ei",
    "C77_regret"
   ],
   "note": "The loop is the one of C01-C07 (BOModel) with the model operations related to the evaluations of FpMeanModel and the acquisition optimizer to the grid search on evaluations of FpAcqModel; `C77_example` instantiates all of them with functions. hp_period <= 0 (the default -1). Iterations with no sample at all are not covered (the GP answers with the prior there). libm contracts of C70 and C73; for EI signal variance at least 1/100."
  },
  {
   "property": "C78",
   "status": "proved",
   "theorems": [
    "C78_converges",
    "C78_approximated"
   ],
   "note": "Finite combinations of kernel functions are dense in the function space of the kernel, and C78_approximated covers whatever they approximate uniformly. The bound needs samples at most 1000 (range of C70) and more iterations than grid points, i.e. coarse grids or few dimensions. Mean function Data and EI are not covered. `C78_example`: all hypotheses met by a run of 600 iterations for each kernel, with a loss of at most 0.15 for Exp."
  },
  {
   "property": "C79",
   "status": "proved",
   "theorems": [
    "C79_ascends",
    "C79_converges",
    "C79_default_reach",
    "C79_default_stops_short"
   ],
   "note": "gamma > 0 and Nesterov momentum are not covered (with momentum the objective is not monotone). The bounds in the unbounded case need a box that leaves room for all iterations. The Euclidean norm of the stopping test enters through what its success implies (`stop_means`); `norm2_never`: with the default threshold 0 it never succeeds. Finding: with its default parameters the optimizer covers at most 0.31 times the largest slope. `C79_example`, `C79_unbounded_example`: all hypotheses met by concrete objectives, bounded and not."
  },
  {
   "property": "C80",
   "status": "proved",
   "theorems": [
    "C80_converges",
    "C80_approximated"
   ],
   "note": "Replaces the GridSearch of C78 by an arbitrary inner optimizer; its loss zeta enters the bound once. Whether NLOpt or CMA-ES reach a given zeta is not stated here (external libraries). Range of samples, mean functions and acquisition function as in C78. `C80_example`: all hypotheses met with zeta = 0 by an exhaustive search over all doubles of the box, in a run of 900 iterations, with a loss of at most 0.22 for Exp."
  },
  {
   "property": "C81",
   "status": "proved",
   "theorems": [
    "C81_retrain",
    "C81_ucb",
    "C81_ei",
    "C81_converges",
    "C81_grid_converges"
   ],
   "note": "Removes the restriction of C77, C78 and C80 to fixed hyper-parameters. The model carries the hyper-parameters next to the GP. The learnt values have to stay in the range of C70 (signal variance 2^-100 to 1, noise 0.0099 to 0.9, length scales at least lam); the gradient-based learners of limbo are not bounded, so this is a hypothesis. Learning of mean-function parameters is not included. `C81_example`, `C81_converges_example`, `C81_grid_example`: all hypotheses met by runs in which the signal variance switches between 1 and 1/2 after every iteration."
  },
  {
   "property": "C82",
   "status": "partial",
   "theorems": [
    "C82_weight",
    "C82_converges",
    "C82_grid_first_refuted"
   ],
   "note": "(1) and (2) are proved; (3) is false of the code and refuted, which is why (2) assumes that the inner optimizer returns a point of the box in the first iteration of a call (RandomPoint does; for NLOpt and libcmaes, which are outside the model, it is an assumption). `run_later` in BOLater.v: in every run, the iterations with number at least 1 are all but at most one per call. `C82_libm_example`, `C82_example`: all hypotheses met by a run of 900 iterations with changing hyper-parameters. `C82_loss_example`: in dimension 1 after 900 iterations the loss is below 1/2 for objectives of norm up to 5/2. In dimension 2 the bound exceeds 1 for runs of 1000 samples, because the weight of GP-UCB is about 7."
  },
  {
   "property": "C83",
   "status": "proved",
   "theorems": [
    "C83_regret",
    "C83_gp_ucb",
    "C83_grid_regret"
   ],
   "note": "Strengthens C78, C80, C81 and C82 from the best sample to the whole sequence of samples (up to 1000). `C83_example`: a run of 900 iterations with changing hyper-parameters in dimension 2, of which at most 432 are worse than any point by more than 0.28 (no loss exceeds 1/2). `C83_grid_example`: 600 iterations with GridSearch, at most 500 worse by more than 1/5. `C83_gp_example`: GP-UCB, hypotheses met by a run of 900 iterations."
  },
  {
   "property": "C84",
   "status": "proved",
   "theorems": [
    "C84_stuck",
    "C84_default_alpha_refuted"
   ],
   "note": "`C84_stuck` is the positive statement, for at least one initial sample (then the acquisition optimizer is never asked on a model without data: `run_inv_ne`). `C84_default_alpha_refuted` shows that the norm hypothesis of C78 cannot be dropped: all its other hypotheses hold, for every number n <= 999 of iterations. `C84_example`: the hypotheses of `C84_stuck` hold together, with completed runs."
  }
 ]
}