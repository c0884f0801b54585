# Design of the limbo model and proofs

Subject: the C++ header library in `/repo/src/limbo` (Bayesian optimisation), read
as text.  Everything is proved about the Coq model in `rocq/theories`; the C++
code is never compiled or run.

## 1. Layers of the model

| layer | number type | why |
|---|---|---|
| control (optimisation loop, statistics, containers, archives) | `spec_float` binary64 (Coq stdlib `SpecFloat`, precision 53, emax 1024), or an arbitrary type | NaN/inf matter, no analysis needed |
| optimizers, grids, parallel max, Pareto, sparsification | `spec_float` binary64 | comparisons with NaN, clamping, float accumulation |
| grid accumulation, distances, scalarisation: error analysis | Flocq on top of `spec_float` (`F64R.v`) | rounding matters |
| kernels and linear algebra of the GP (factor, alpha, mean, variance) a second time: error analysis | Flocq on top of `spec_float`, sums evaluated in any order | rounding decides whether the factorisation succeeds |
| kernels, GP, likelihood, EI, UCB, LHS, IMGPO boxes | Coq stdlib `R` (Coquelicot for derivatives/integrals) | algebraic/analytic identities; **rounding is not modelled there** (declared simplification) |

External calls are parameters of the theorems (Section variables generalised at
the end of the section): the user objective (an arbitrary stateful oracle that may
throw), the aggregator, the random generator (an arbitrary stream / arbitrary values
in the documented range), the scheduler (an arbitrary reduction tree or an arbitrary
permutation of the iterations, justified access by access in C72), the inner optimizer, `erfc` (by its integral
contract), `printf`/`strtod`.

Errors: exceptions, failed `assert`s, undefined behaviour (out-of-range access,
uninitialised reads), non-finite intermediate results and non-termination (fuel) are
distinct outcomes of the model (constructors of an outcome type, or `None`), never
totalised to a default.

## 2. Files

* `*Model*.v`: definitions only; each cites file and lines of `/repo`.
* `*Spec.v`: small specifications, independent of the model's helpers.
* `*Facts*.v`, `LinAlg.v`, `Psd.v`, `MaternPsd.v`, `MatCalc.v`, `Det.v`, `GaussInt.v`, `OptFloat.v`, `KernelGrad.v`: lemmas.
* `Prop_*.v`: the property theorems and, beside them, examples showing that concrete
  non-trivial cases meet the hypotheses.  Names ending in `_partial` prove part of a
  property; names ending in `_refuted` prove that a claim is false of the model, with a witness.
* `seeded/LOG.jsonl`: deliberate bugs planted in a scratch copy of the model, and the theorems that caught them.
  `killed` means that the proof script of at least one listed theorem no longer goes through, all statements still
  typechecking; it does not by itself show that the theorem is false of the edited model. Edits that changed the
  arguments of a definition (a section variable dropped or added), or that kept an earlier file from building, are
  `inconclusive` and not counted; several are repeated in a well-typed form.

## 3. Properties: what is modelled, how it is proved

The statement of each property is in `properties.jsonl`.

**C01 Samples and observations stay paired and finite** (proved). Modelled: `BoBase`/`BOptimizer` as a state machine over an arbitrary objective, model and acquisition optimizer, with a ghost trace. Proof: invariant over all call histories (induction on the history, on fuel, on the initial points). Theorems in `Prop_BO.v`. For every history of optimize/eval_and_add/add_new_sample calls.

**C02 A rejected evaluation leaves no trace** (proved). Modelled: same. Proof: case analysis of one evaluation; the state after an exception is the state before. Theorems in `Prop_BO.v`.

**C03 Exact evaluation budget** (proved). Modelled: same; main loop with fuel. Proof: induction on the remaining iterations; fuel shown sufficient. Theorems in `Prop_BO.v`. Int overflow of the counters not modelled.

**C04 Resuming keeps history, resetting discards it** (proved). Modelled: same. Proof: prefix invariant over calls. Theorems in `Prop_BO.v`.

**C05 The model is trained on exactly the collected data** (proved). Modelled: same, abstract model type with a data contract. Proof: invariant at each loop head and at return. Theorems in `Prop_BO.v`. For every model class obeying the data contract.

**C06 Hyper-parameters are re-optimised exactly every hp_period iterations** (proved). Modelled: same, with a trace of hyper-parameter optimisations. Proof: induction over iterations. Theorems in `Prop_BO.v`.

**C07 Stopping is the disjunction of the criteria and is memoryless** (proved). Modelled: `_stop` as `boost::fusion::accumulate` with `ChainCriteria`. Proof: list induction. Theorems in `Prop_BO.v`.

**C08 best_observation / best_sample return the incumbent** (proved). Modelled: `std::max_element` over binary64 comparisons. Proof: list induction, order lemmas for non-NaN floats. Theorems in `Prop_BO.v`.

**C09 Log files list every sample exactly once and in order** (proved). Modelled: the statistics functors writing rows to a modelled file. Proof: invariant tying the rows to the stored data over whole histories. Theorems in `Prop_Stat.v`. Any history in which only the first call may reset, exceptions included; number formatting not modelled; a later reset=true call repeats the header (refutation).

**C10 Latin hypercube initialisation is stratified** (partial). Modelled: `LhsModel`: `random_lhs` over R; `LhsFModel`: `random_lhs` and `init/lhs.hpp` in binary64; arbitrary shuffles. Proof: permutation argument per column; rounding errors through Flocq, half-way points next to 1. Theorems in `Prop_Lhs.v`, `Prop_LhsF.v`. Over R as stated; in binary64 (n <= 2^31) every coordinate is in [0,1] and, one point per stratum, within 2^-50 of its stratum; a coordinate may be exactly 1 (refuted: rounding of the largest draw).

**C11 Grid initialisation covers the full grid** (partial). Modelled: the recursive `_explore` loops over binary64. Proof: structural induction for the product grid; Flocq forward error bound for the accumulated values; witness by `vm_compute`. Theorems in `Prop_Init.v`. The full statement is false in binary64: for bins=9 (and many others) the accumulated last value exceeds 1 and the upper bound of every dimension is never sampled (bins^dim points instead of (bins+1)^dim); proved: exact exploration of the product grid and bins or bins+1 values per dimension, k-th within 2^-28 of k/bins, all in [0,1].

**C12 Random initialisers perform exactly `samples` evaluations inside the unit box** (proved). Modelled: the random initialisers over an arbitrary stream. Proof: list induction. Theorems in `Prop_Init.v`. Random draws are arbitrary values in the documented range.

**C13 Bounded gradient optimizers never leave the unit box** (proved). Modelled: Rprop, Adam, GradientAscent over binary64, arbitrary gradient oracle. Proof: loop invariant on clamped vectors; for Adam and GradientAscent, bounds by powers of two that rounding preserves (`average`: a rounded moving average of numbers up to 2^k stays below 2^k). Theorems in `Prop_Opt.v`. Binary64; for Rprop NaN coordinates are excluded whatever the gradient; for Adam and GradientAscent when the rates are in [0,1) and the learning rate and the gradients in the box are numbers of size at most 2^400, for any number of iterations.

**C14 Rprop returns the best point it evaluated** (proved). Modelled: Rprop. Proof: loop invariant "best so far". Theorems in `Prop_Opt.v`.

**C15 Grid search returns the best grid point** (partial). Modelled: GridSearch recursion, uninitialised vectors explicit. Proof: induction on the dimension. Theorems in `Prop_Opt.v`. The full statement is false: a single grid line without any value above -DBL_MAX makes the objective be evaluated at an uninitialised vector even if other points are fine; exact condition for a defined result proved (iff).

**C16 Grid search stays in the unit box** (partial). Modelled: GridSearch recursion. Proof: Flocq error bound; witness by `vm_compute`. Theorems in `Prop_Opt.v`. The full statement is false in binary64 (bins=10 evaluates and may return 1.0999999999999999); proved bounds for all bins <= 2^20.

**C17 Parallel maximum is schedule independent** (proved). Modelled: `par::max` as an arbitrary reduction tree. Proof: tree induction. Theorems in `Prop_Opt.v`.

**C18 ParallelRepeater returns the best of its restarts** (proved). Modelled: ParallelRepeater on top of C17. Proof: tree induction; Flocq bound for the perturbed starts. Theorems in `Prop_Opt.v`.

**C19 Chained optimizers compose** (proved). Modelled: Chained optimizers of any length. Proof: list induction. Theorems in `Prop_Opt.v`.

**C20 Kernels are symmetric, bounded and noise-consistent** (proved). Modelled: the four kernels over R. Proof: direct. Theorems in `Prop_Kernel.v`. Over R; sigma_sq > 0, l > 0.

**C21 Kernel hyper-parameter vectors round-trip** (proved). Modelled: hyper-parameter vectors of the kernels. Proof: direct. Theorems in `Prop_Kernel.v`. Over R; when the noise is optimised its initial value has to be positive (log(sqrt(0)) otherwise).

**C22 Kernel gradients are the derivatives** (proved). Modelled: kernel gradients. Proof: Coquelicot `is_derive`. Theorems in `Prop_Kernel.v`. Over R.

**C23 Kernel matrices are positive definite, so the Cholesky factorisation cannot fail** (proved). Modelled: Gram matrices. Proof: Schur product and exponential series for SE kernels, scale mixture of Gaussians for Matern kernels. Theorems in `Prop_Kernel.v`. Over R, all four kernels; positive semi-definiteness of the Matern kernels proved as a scale mixture of Gaussians.

**C24 GP predictions are the exact posterior** (proved). Modelled: `GP` object over R with explicit matrices, Cholesky (batch and incremental), triangular solves, cached fields; any list of calls. Proof: refinement: an invariant ties the fields to a specification state; correctness of the factorisation and of the substitutions. Theorems in `Prop_GP.v`, `Prop_Mean.v`. Over R, any kernel/mean obeying the contracts KernOK/MeanOK (all kernels and means of limbo do), any history of calls.

**C25 Incremental and batch training agree** (proved). Modelled: same. Proof: consequence of C24: the prediction depends on the final data only. Theorems in `Prop_GP.v`. Over R.

**C26 Training order does not matter** (proved). Modelled: same. Proof: permutation of the kernel matrix. Theorems in `Prop_GP2.v`. Over R.

**C27 Predicted variance is between noise and prior, and more data never increases it** (proved). Modelled: same. Proof: Schur complement / quadratic forms. Theorems in `Prop_GP2.v`. Over R.

**C28 The GP interpolates its data up to noise** (proved). Modelled: same. Proof: direct from the posterior formula with zero noise. Theorems in `Prop_GP2.v`. Over R.

**C29 Cached inverse kernel and stale state** (partial). Modelled: same, with the cache flag of the inverse. Proof: invariant over histories; witnesses for stale caches. Theorems in `Prop_GP2.v`, `Prop_Load2.v`. Proved for every history of compute, add_sample, set_h_params, recompute and compute_inv_kernel that ends with an up-to-date kernel matrix; refuted (with witnesses) after set_h_params without recomputation and after load(archive, false).

**C30 Log-likelihood gradient is the derivative of the log-likelihood** (proved). Modelled: `compute_log_lik`, `compute_kernel_grad_log_lik`, `compute_mean_grad_log_lik`. Proof: determinant by Laplace expansion = product of pivots; derivative of inverse and log-determinant, trace identity. Theorems in `Prop_Lik.v`, `Prop_Lik2.v`. Over R; the density is stated with the determinant (Laplace expansion) and inverse of the noisy kernel matrix; derivative of the value actually returned after setting one parameter and recomputing; with several outputs the returned value is not the joint log density (log determinant and constant counted once).

**C31 Leave-one-out objective is genuine leave-one-out** (partial). Modelled: `compute_log_loo_cv`, `compute_kernel_grad_log_loo_cv`. Proof: block inverse; derivative of the score. Theorems in `Prop_Lik.v`, `Prop_Lik2.v`, `Prop_Loo.v`. Over R; value proved for every mean that ignores the observations, any number of outputs and samples; refuted for mean::Data, whose prior mean contains the left-out observation; the gradient is the derivative of the returned score for every mean.

**C32 Hyper-parameter optimisation never lowers the likelihood** (proved). Modelled: KernelLFOpt, MeanLFOpt, KernelMeanLFOpt, KernelLooOpt with Rprop or any optimizer. Proof: C14/C30 composed over R, and the control flow in binary64. Theorems in `Prop_HpOpt.v`, `Prop_HpOptF.v`. Over R for the whole stack (GP, likelihood, gradient, Rprop or any optimizer that does not worsen its start); in binary64 for an arbitrary GP object, NaN included. The starting GP must be up to date (otherwise compute_log_lik() of the start is that of stale matrices).

**C33 Mean functions** (proved). Modelled: the mean functions, FunctionARD nested. Proof: induction on the nesting, `is_derive`. Theorems in `Prop_Mean.v`. Over R, for NullFunction, Constant, Data and FunctionARD nested to any depth.

**C34 MultiGP add_sample agrees with compute** (partial). Modelled: `MultiGP` over a list of `GP` objects, arbitrary schedules of the per-output loops. Proof: invariant over histories reduced to C24/C25 per output. Theorems in `Prop_MultiGP.v`, `Prop_MultiGP2.v`. Proved for every mean function that ignores the observations, every history and every schedule; refuted for mean::Data (add_sample differs from compute) and for recompute(true,false), which leaves the predictions stale.

**C35 Sparsification keeps pairs and bounds the size** (proved). Modelled: `SparsifiedGP::_sparsify`, `_get_denser_point`, `_remove_point` over binary64, arbitrary schedule. Proof: loop invariants on index lists; Flocq bounds; refinement to C24 for the predictions. Theorems in `Prop_Sparse.v`, `Prop_Sparse2.v`. Any data, any schedule of the density loop, any uninitialised diagonal; distances at most 2^900 and dimension <= max_points (otherwise points are kept beyond the bound, or the sort runs out of range: refutations); predictions are the exact posterior (over R) of the kept pairs.

**C36 Binary archive round trip is bit exact** (proved). Modelled: byte-level binary archive. Proof: list induction. Theorems in `Prop_Serialize.v`. Byte-level model, every 64-bit pattern; an empty list is written but cannot be loaded (outside the statement).

**C37 Truncated archives are not silently accepted** (partial). Modelled: same. Proof: exact description of what loading a prefix returns. Theorems in `Prop_Serialize.v`. The statement is false: every strict prefix of the file of a non-empty matrix is accepted silently and yields another matrix.

**C38 Text archive preserves structure** (proved). Modelled: character-level text archive, printing/parsing as oracles (contract: nearest decimal with p digits, nearest double). Proof: list induction; relative error in radix 10 (Flocq FLX). Theorems in `Prop_Serialize.v`, `Prop_TextPrec.v`. Printing and std::stod are parameters; matrices with at least one coefficient and non-empty lists; counter-examples otherwise. C38_close and C38_lossless_refuted assume that printing gives a nearest decimal with p digits and that std::stod rounds to nearest; with p <= 16 (Eigen::FullPrecision is 15 or 16) no reader can recover all doubles.

**C39 A saved and reloaded GP predicts the same** (proved). Modelled: `GP::save`/`load`. Proof: equality of the observable state, then C24. Theorems in `Prop_Load.v`, `Prop_Load2.v`. Predictions agree after load with and without recomputation, into any target object, and after any further valid history (starting with add_sample or compute when loaded without recomputation); finding: after load(archive, false) into a new object compute_log_lik works on matrices of incompatible sizes.

**C40 UCB is mu + alpha*sqrt(sigma) and monotone** (partial). Modelled: UCB over R and binary64. Proof: direct. Theorems in `Prop_Acqui.v`, `Prop_Acqui2.v`, `Prop_AcquiF.v`. Value and monotonicity proved (reals; monotonicity also for binary64 results without overflow); the claim that an unexplored point ranks at least as high as an explored one with the same mean is refuted.

**C41 GP-UCB exploration weight is well defined** (partial). Modelled: GP_UCB over R and binary64. Proof: direct. Theorems in `Prop_Acqui2.v`, `Prop_AcquiF.v`. For iterations >= 1 the weight is the documented one, positive and increasing; at iteration 0, which every call of optimize() uses first, weight and value are NaN (refuted).

**C42 EI is the expected improvement** (proved). Modelled: EI over R. Proof: improper integrals (Coquelicot), Gaussian integral. Theorems in `Prop_Acqui.v`, `Prop_EI.v`. Over the reals; erfc is any function equal to its defining integral (shown to exist).

**C43 EI uses the current incumbent** (partial). Modelled: EI with its mutable incumbent, threads as interleavings. Proof: invariant on the pair (nb_samples, f_max). Theorems in `Prop_Acqui2.v`, `Prop_AcquiF.v`, `Prop_EI.v`. Proved when every change of the model adds samples (the use made by the optimizer); refuted when the model is retrained on as many samples, and for concurrent first calls.

**C44 Pareto set is exactly the set of non-dominated points** (proved). Modelled: `pareto::pareto_set` over binary64, parallel loop as arbitrary schedule. Proof: list induction, permutations. Theorems in `Prop_Pareto.v`. Objective vectors of one length >= 2 without NaN (otherwise the comparator of std::sort is not a strict weak order); std::sort modelled by its contract; the unused sort_2objs is refuted.

**C45 Pareto dominance is a strict partial order** (proved). Modelled: `dominate_flag`. Proof: list induction. Theorems in `Prop_Pareto.v`.

**C46 Constrained optimizer reports feasible incumbents and trains on its data** (partial). Modelled: `CBOptimizer::optimize` as a state machine. Proof: invariant where all observations are feasible; runs as witnesses otherwise. Theorems in `Prop_CB.v`, `Prop_CB2.v`. Best_observation() is right for 0/1 constraints; best_sample() and the training values are proved right only when every observation is feasible (and, for training, the statistics query the best observation at every iteration); otherwise refuted with runs of the optimizer: the model is trained with values of other samples, best_sample() is not where best_observation() was measured. The constraint model is trained with the constraint values of all samples when the statistics query the best observation at every iteration. The iteration counters and the iterations at which the hyper-parameters are optimised (every hp_period-th) are right in every run; the objective model's training set is not the data, though, as above.

**C47 ParEGO scalarisation respects dominance** (proved). Modelled: `GPParego` scalarisation and model. Proof: direct; Flocq bounds for the binary64 versions. Theorems in `Prop_Parego.v`, `Prop_Parego2.v`. Weights and value over R for any order of summation; monotonicity also in binary64 (values up to 2^900); a draw of zeros only gives NaN weights (refutation); GPParego as a whole predicts with the exact posterior of the data scalarised with the last draw.

**C48 Seeded random generators are reproducible and seed sequence is recoverable** (proved). Modelled: `seed_seq_fe` modulo 2^32. Proof: bit-level algebra: every mixing step is a bijection. Theorems in `Prop_Seed.v`. Any number of words and mixing rounds >= 1; the Mersenne twister behind it is not modelled.

**C49 MaxPredictedValue stops exactly at the ratio** (partial). Modelled: `MaxPredictedValue`. Proof: case analysis on comparisons. Theorems in `Prop_AcquiF.v`. Proved unless a value is NaN; with a NaN prediction the criterion stops (refuted).

**C50 IMGPO cells stay consistent** (partial). Modelled: `IMGPO::optimize`: the tree, all five steps of the iteration, any number of iterations. Proof: invariant (tiling, balance, centres) preserved by each step; progress lemma for undefined behaviour. Theorems in `Prop_Imgpo2.v`. Box coordinates over R, values in binary64; any first call (or call with reset): the leaves tile the cube, sides are balanced powers of 1/3, points are centres; no out-of-range level before 1000 iterations; refuted for a second call without reset, which adds an overlapping root box.

**C51 IMGPO sampled leaves stand for evaluations** (partial). Modelled: same. Proof: same invariant, extended with the list of evaluated points; history relation `answers`/`recorded` for the calls of the objective. Theorems in `Prop_Imgpo2.v`, `Prop_Imgpo3.v`. A first call asks the objective exactly for the new samples, in order, records its answers and counts them; one iteration makes at most 3 evaluations per level; a second call without reset records the old answer at the centre instead of the new one (refuted); no point is evaluated twice and the flags are right; the stored value is refuted: a leaf labelled by the model and evaluated later keeps its label.

**C52 ParallelLFOpt optimises every output** (proved). Modelled: `ParLfModel` (`multi_gp/parallel_lf_opt.hpp`), `HpOptModel`, `MultiGPModel`. Proof: every inner optimisation is a `SetK; Recompute` step of the inner history (C32); the loop by permutation of its iterations; MultiGP invariant of C34. Theorems in `Prop_ParLf.v`. Over R, KernelLFOpt with Rprop as the inner optimizer; samples present and nothing left to recompute.

**C53 A MultiGP saved and loaded predicts the same** (partial). Modelled: `MultiGPModel` `mg_save`/`mg_load`, `GPModel` `save`/`load`. Proof: C39 for every inner GP; weak invariant `mlinv` of a loaded MultiGP, restored by recompute. Theorems in `Prop_MultiLoad.v`. Archives hold exact values (C37/C38 treat the formats); loading without recomputation predicts the same; loading with recomputation is equivalent, under all further calls, to recompute(true,true) on the original, which predicts the same when the subtracted means are current; refuted for mean::Data with added samples.

**C54 Expected constrained improvement** (partial). Modelled: `EciModel` (`experimental/acqui/eci.hpp`), `AcquiModel`. Proof: tail integral of the normal density from the Gaussian integral; reduction of the call to EI (C42). Theorems in `Prop_Eci.v`. Over R; proved while the constraint model has no samples or a standard deviation of at least 1e-10; below, the code takes the constraint as satisfied, refuted by an observed violation.

**C55 UCB_IMGPO is the bound IMGPO needs** (partial). Modelled: `EciModel` (`experimental/acqui/ucb_imgpo.hpp`, labels of `imgpo.hpp`). Proof: real analysis (log, sqrt monotone); concrete one-sample GP for the refutations. Theorems in `Prop_Eci.v`. Over R; value, lower bound and monotonicity proved whenever 12 nu <= (pi M)^2, in particular for nu <= 3/4 and M >= 1; NaN otherwise (refuted with nu = 0.95); the stored label is the bound for nu = 0.05 only (refuted for nu = 0.5).

**C56 ehvi2d is the expected hypervolume improvement** (partial). Modelled: `EhviModel` (`src/ehvi/helper.cc`, `ehvi2d`, `experimental/acqui/ehvi.hpp`). Proof: the improvement as a sum of products of one-dimensional improvements (by slices, induction on the staircase), expectation by C42's integral; the double loop by loop invariants and summation by parts. Theorems in `Prop_Ehvi.v`, `Prop_Ehvi2.v`. Over R; proved for positive deviations with the two constants of ehvi_consts.h read as sqrt 2 and 1/sqrt(2 pi) (with the ten digits given the value is not exact: refuted); acqui::Ehvi hands variances to a function of standard deviations (refuted; correct for variances 1); zero deviations level with a front point give 0 and points below the reference point too large a value (refuted).

**C57 Hypervolume indicator** (partial). Modelled: `HvModel` (`src/hv/hypervol.c` reachable from limbo, `experimental/stat/hyper_volume.hpp`), arrays with swaps. Proof: loop invariants up to permutation; volume by slices (Cavalieri), induction on the number of objectives; the slab sum is the integral of a step function. Theorems in `Prop_Hv.v`. Over R; the volume (Cavalieri, any dimension) is proved for two objectives or more and points not below the reference point; with one objective the code returns the square, and points below the reference point make the value too small (refuted).

**C58 Multi-objective optimizers use current models and the current Pareto set** (partial). Modelled: `MultiBoModel` (`bo_multi.hpp`, `ehvi.hpp`, `nsbo.hpp`, `stat/pareto_front.hpp`) on `BOModel`, relation over schedules. Proof: invariant over the loop; C44 for the Pareto set, C17 for the parallel maximum. Theorems in `Prop_MultiBo.v`. Every iteration of Ehvi::optimize, and of Nsbo::optimize with an NSGA-II that returns a point, is right in every execution once there is a sample; refuted: no initial sample (out-of-range read), Nsbo without sferes (division by zero), pareto_data() after the return lacks the last sample, a NaN acquisition value makes a one-dimensional zero vector the new sample.

**C59 Bindings to NLOpt and libcmaes ask for what they were asked** (partial). Modelled: `NloptModel` (`opt/nlopt_{base,grad,no_grad}.hpp`, `opt/cmaes.hpp`), the libraries as parameters with a stated contract. Proof: invariant on the object over a sequence of calls; counterexample libraries that meet the contract for the refutations. Theorems in `Prop_Nlopt.v`. NLOpt and libcmaes are arbitrary functions meeting a stated contract; proved for calls of one dimension until a bounded call is followed by an unbounded one, and for starts inside the box; refuted: the bounds of a bounded call stay for later unbounded calls of the object, a call with another dimension throws or returns its start unchanged, a bounded call from outside the box returns a point outside the box; a fun_tolerance of 0 enables the CMA-ES criterion documented as enabled by values above 0.

**C60 A bounded optimization evaluates only points of the unit box** (partial). Modelled: `BoxModel`: the stack of acquisition optimizers as a relation on top of `OptModel` and `NloptModel`; `BOModel`, `InitModel`, `LhsFModel`. Proof: induction on the stack (C13, C15, C18, C59 for the leaves), invariant over the trace of the optimizer; runs of the optimizer as counterexamples. Theorems in `Prop_Box.v`. Proved for all five initialisation functions and every stack of RandomPoint, GridSearch (with bins whose values stay below 1, such as the default or any power of two), Rprop, Adam and GradientAscent (gradients of size at most 2^400), NLOpt, CMA-ES, Chained and ParallelRepeater of an optimizer that needs no start in the box; includes the default acquisition optimizers; refuted for GridSearch with 10 bins, ParallelRepeater over NLOpt, and Adam with an infinite gradient (NaN).

**C61 The optimizer always consults the exact posterior of its data** (proved). Modelled: `BoGpModel`: the operations of `model::GP` as the model of `BOModel`. Proof: relational invariant of the optimizer (`BORel`), instantiated with 'the GP has a history whose meaning is the current data'; C24 and C32 for each step. Theorems in `Prop_BoGp.v`, `Prop_BoGp2.v`. The GP computes over the real numbers; objective and acquisition optimizer return finite vectors of the announced sizes; composition of C05, C24, C25 and C32. C61_reset_keeps_parameters: after optimize(reset = true) the GP keeps the hyper-parameters learned before the reset.

**C62 The logs about the model show predictions, not fits** (proved). Modelled: `GpStatModel`: the statistics functors that read the model. Proof: trace grammar (`chunks`): a refresh of the statistics follows the proposal of its sample; combined with C09's invariant and C61. Theorems in `Prop_GpStat.v`. Number formatting and file-system failures are not modelled; the grid of gp_<n>.dat has the values of C11, so its upper bound may be missing; gp_likelihood.hpp calls a member that does not exist and cannot be instantiated.

**C63 The sparse GP with pseudo-inputs predicts with the exact posterior of its approximation** (partial). Modelled: `SpgpModel` (`experimental/model/spgp.hpp`, function by function; the optimizer and the random subset are parameters). Proof: matrix algebra of `SpgpAlg` (push-through identity, Woodbury, Schur complement) and an invariant over the history of calls. Theorems in `Prop_Spgp.v`, `Prop_Spgp2.v`. Posterior, bounds of the variance and effect of every history proved for query and predict, real arithmetic, one output, at least two distinct values per coordinate, mean functions as in C24. Not true of the program, and refuted: mu(v)/sigma(v) for inputs of more than one dimension, add_sample before compute, several outputs, constant coordinates, the start point when m > 1 and dim > 1, optimize_hyperparams on its own (stale factors, negative variance).

**C64 The sparse GP tunes its parameters with the log-density of its approximation** (partial). Modelled: same; `l_*` definitions line by line. Proof: Sylvester's determinant identity (`sylvester`), matrix inversion lemma for the quadratic form, linearity of forward substitution. Theorems in `Prop_SpgpLik.v`. Proved when n - m is even (n samples, m pseudo-inputs); when it is odd, the value is proved to be the log-density plus half the logarithm of the noise variance, because (n - _m) / 2 is an integer division (C64_odd_refuted). Real arithmetic; scope as in C63.

**C65 The gradient of the sparse GP's likelihood is the exact gradient** (proved). Modelled: same; `g_*` definitions line by line. Proof: derivatives of Cholesky-based inverse and log-determinant along a path of parameters (`gauss_derive`, `A_derive`), then an algebraic identity in scaled matrices (`scaled_grad`) and its linearity (`gform`), component by component (`gX`, `gB`, `gC`, `gS`). Theorems in `Prop_SpgpGrad.v`. Over R; scope as in C63 (one output). The gradient belongs to the log-density; the value returned with it is the log-density only when n - m is even, so for odd n - m the last component is not the derivative of that value (it is proved to differ by exactly 1/2; C65_odd_refuted).

**C66 The declared solutions of the benchmark functions are the optima, and accuracy() is the gap to the optimum** (partial). Modelled: BenchModel: the six functions, `solutions()`, `Benchmark::operator()`, `accuracy`. Proof: sums of squares; `goldstein_facts` factors the two factors of Goldstein-Price in x + y and 2 x - 3 y; Machin's formula for bounds of pi; for the camel, a dual bound in y * y that leaves a polynomial inequality in one variable (`camel_dual`, `camel_poly`). Theorems in `Prop_Bench.v`. Over R, M_PI read as pi. Sphere, Ellipsoid, Rastrigin, GoldsteinPrice: the declared solutions are exactly the minimisers, accuracy is exact. BraninNormalized: the three minimisers are determined; the third declared row is a rounding of the third (accuracy right up to 1e-10; refuted exactly). SixHumpCamel: the declared points are roundings (optimal and accurate up to 1e-7; refuted exactly: a better point has a larger accuracy value). Hartmann3 and Hartmann6 are not modelled.

**C67 ParEGO consults the exact posterior of its scalarised data** (proved). Modelled: ParegoBoModel: GPParego as the model of BOptimizer, [load] inherited; the draws and orders of summation come from the world. Proof: the invariant of C61, restated for data in R (`RtrR`), with C47 for the weights; `run_inv_all` carries it through all histories. Theorems in `Prop_ParegoBo.v`, `Prop_ParegoBo2.v`. Real arithmetic for model and scalarisation; C67_limbo instantiates the kernels and means of the library with Rprop for the parameters. C67_add_after_load: a GPParego that was saved and loaded cannot take another sample (size mismatch), since the raw observations are not saved.

**C68 A MultiGP of sparsified GPs predicts from thinned data** (partial). Modelled: MultiGP with GPClass = SparsifiedGP. Proof: invariant: every output's GP holds a thinned list; thinning commutes with taking one output; refutations. Theorems in `Prop_MultiSparse.v`. Proved: every history succeeds, every output keeps min(p, n) pairs obtained by thinning and is predicted with their posterior (exact for mean functions that ignore the observations; in general with the mean values subtracted at the time of the call); reals, distances at most 2^900, dimension at most p. Refuted: observations() keeps all n observations while samples() lists the min(p, n) kept ones, so recompute(true, _) violates the size assertion (out-of-range read without assertions) for every history with n > p; ties are broken by the schedule, so outputs may keep different samples.

**C69 Predictions of a GP in double precision** (proved). Modelled: `FpModel`: LLT, incremental Cholesky, triangular solves, mean and variance in binary64 as relations (any expression tree for a sum). Proof: standard model of rounding over expression trees; induction over columns with the Schur complement of the perturbed matrix; the forward solve of the query as one more row of the factor; comparison of quadratic forms; witnesses by `vm_compute`. Theorems in `Prop_Fp.v`. Binary64 (Flocq), every sum of products evaluated by an arbitrary expression tree with at most m operations. Proved when the noise is at least (n+1)(err+eps), err = 7(m+4) 2^-53 D, D = bound of the kernel values, eps = their error: no breakdown, finite factor, backward error err+eps; bounds for the variance (noise at least 2(n+2)(err+eps)) and the mean: C69_mean in terms of the computed alpha when it is finite; C69_mean_finite shows it finite and bounds the error by exact quantities alone when the noise is at least 6(n+2)(err+eps), the kernel magnitude between 2^-100 and 2^100 and the observations below 2^200. The jitter 1e-8 of the library suffices for 1000 samples of a kernel of magnitude 2. The condition on the noise cannot be dropped (refuted): a matrix of doubles that is exactly positive definite for which the factorisation stops and the mean is NaN; the default noise 0.01 absorbed by a signal variance 2^48.

**C70 Kernels in double precision, and a GP on them** (proved). Modelled: `FpKerModel`: the four kernels and `operator()` in binary64, std::exp a parameter; `FpModel` for the rest of the GP. Proof: relative/absolute error propagation through the formulas; Lipschitz bounds of exp(-s), (1+s)exp(-s), (1+s+s^2/3)exp(-s) under relative perturbation of s; positive semi-definiteness of the exact kernel matrix from `Psd`/`MaternPsd`; then C69. Theorems in `Prop_FpKer.v`. Binary64 (Flocq); std::exp is a parameter with an error contract (met by the correctly rounded exponential, C70_libm_example). The exact side is the kernel model over R of C20-C23, evaluated at the values of the doubles, so C70 also relates the two models. C70_tiny_scale_refuted: outside the range, a length scale below 2^-538 makes k(x, x) a NaN for Exp and MaternFiveHalves. Not covered: SquaredExpARD with Params::kernel_squared_exp_ard::k() > 0; the rounding of exp/log in set_params (the parameters are the doubles stored in _l, _sf2, _ell, _noise)..

**C71 The log-likelihood in double precision** (proved). Modelled: `FpLikModel`: compute_log_lik in binary64/long double; `FpModel`, `FpKerModel` for the GP. Proof: pivots as minima of the quadratic form: close matrices have close pivots, so close log-determinants; the error of the quadratic form is the residual times the exact weights; pi from Machin's formula. Theorems in `Prop_FpLik.v`. Binary64 (Flocq) with the model of C69/C70; the logarithm is a relation with an error contract (met by the correctly rounded one, C71_libm_example), because Eigen's vectorised log and std::log differ. long double is a parameter (precision >= 53, least exponent <= -1074); its overflow is left out. Not covered: the gradient of the likelihood in double precision, other noise ranges for (b)..

**C72 Parallel loops: every interleaving has the outcome of a sequential order** (proved). Modelled: `ParModel` (`parallel.hpp:137-151` access by access), `ParUseModel` (bodies of the loops). Proof: invariant on phases and mutex owner; commutation of accesses, moving iterations past their critical section to the front; well-founded order on the remaining programs; refinement to the order-based models. Theorems in `Prop_Par.v`. Memory is sequentially consistent (the C++ guarantee for race-free programs). Objects such as an inner GP are one location. push_back of tbb::concurrent_vector is taken to be atomic. The iterations start no threads of their own. The models of C34, C35, C44, C52 and C58, which run the iterations in an arbitrary order, are justified by this..

**C73 UCB and EI in double precision are close to the exact upper confidence bound and the exact expected improvement** (proved). Modelled: `FpAcqModel` (`ucb.hpp:82-88`, `ei.hpp:83-119` in binary64) on `FpModel`, `FpKerModel`. Proof: lower bound of the exact variance from the spectrum of the kernel matrix; Lipschitz bound of the expected improvement in mean and standard deviation; rounding-error analysis of the closing formula; comparison of the largest computed and exact means. Theorems in `Prop_FpAcq.v`. Assumes of libm: exp within 2^-52 relative, erfc within 2^-50 absolute, pow(x,2) within 2^-52 relative (plus underflow). One output, FirstElem aggregator. Binary64 with rounding to nearest, hyper-parameters and data in the range of C70. The cached incumbent is the one of the current samples (C43)..

**C74 Grid search on the computed UCB or EI returns a near-maximiser of the exact acquisition function over the whole unit box** (proved). Modelled: `OptModel` (`grid_search.hpp`) on the evaluations of `FpAcqModel`, `FpModel`, `FpKerModel`. Proof: Lipschitz bounds of the kernels in the distance of the feature vectors; the posterior standard deviation as a seminorm; nearest grid point; combination with C15, C16, C73. Theorems in `Prop_Next.v`. Constant mean function (Constant, NullFunction), no ARD factor A, one output, FirstElem aggregator; libm contracts of C73. q may leave the box by up to one grid step (C16). The acquisition function is evaluated one point at a time, each evaluation with any rounding order; an infinite confidence parameter is not covered..

**C75 The computed variance of a GP is positive wherever the exact one is; UCB and EI see the uncertainty** (partial). Modelled: `FpModel` (`gp.hpp:618-624`), `FpAcqModel`, `OptModel` (`grid_search.hpp`). Proof: rounding-error bound of the difference, which is at most the kernel value; strict positivity of the expected improvement by the mean value theorem; induction over the dimensions of the grid. Theorems in `Prop_Flush.v`. The full statement is refuted. Between the two ranges (exact variance above 2^-52 but below 1.1e-6) nothing is proved: the error bound of C70 is absolute. Range and libm contracts of C73..

**C76 Prediction of the GP in double precision against the posterior of the raw observations, mean function and incremental updates included** (proved). Modelled: `FpMeanModel` (`mean/*.hpp`, life of `gp.hpp`) on `FpModel`, `FpKerModel`; `FpImpl` is one evaluation of it. Proof: summation error of FpErr for the mean; perturbation of the right-hand side by the row sums of the inverse; invariant over compute/add_sample (`FpLife`); combination with C70, C73. Theorems in `Prop_FpMean.v`. One output. No ARD factor A. The kernel and the mean function keep their parameters (no hyper-parameter optimisation). exp is any function with relative error 2^-50 (C70). FunctionARD mean is not covered..

**C77 Every sample of every run of the optimizer in double precision nearly maximises the exact acquisition function of the data** (proved). Modelled: `BOModel` with `FpMeanModel`, `FpAcqModel`, `OptModel`. Proof: `BORun`: invariant over all runs relating data, model and chosen sample, assuming answers of the acquisition optimizer only for models of the run; per-iteration combination of C74 and C76. Theorems in `Prop_BoFp.v`. The loop is the one of C01-C07 (BOModel) with the model operations related to the evaluations of FpMeanModel and the acquisition optimizer to the grid search on evaluations of FpAcqModel; `C77_example` instantiates all of them with functions. hp_period <= 0 (the default -1). Iterations with no sample at all are not covered (the GP answers with the prior there). libm contracts of C70 and C73; for EI signal variance at least 1/100..

**C78 Convergence of whole optimizer runs in double precision: the best sample is nearly a global maximum of the objective** (proved). Modelled: `BOModel` with `FpMeanModel`, `FpAcqModel`, `OptModel`. Proof: `FpBand`: confidence band in the space spanned by the kernel functions (Cauchy-Schwarz), variance at most nugget/c at a point sampled c times; `BOCount`: invariant relating iterations, samples and choices in every run, pigeonhole over the grid; rounding from C73 and C76. Theorems in `Prop_Conv.v`. Finite combinations of kernel functions are dense in the function space of the kernel, and C78_approximated covers whatever they approximate uniformly. The bound needs samples at most 1000 (range of C70) and more iterations than grid points, i.e. coarse grids or few dimensions. Mean function Data and EI are not covered. `C78_example`: all hypotheses met by a run of 600 iterations for each kernel, with a loss of at most 0.15 for Exp..

**C79 GradientAscent in double precision: monotone up to rounding, O(1/T) convergence on concave objectives, and the reach of the default parameters** (proved). Modelled: OptModel.v (`ga_loop`, `gradient_ascent`). Proof: one iteration = projection of x + alpha*G(x) + perturbation; the projection inequality, telescoping sum of squared distances; rounding by FpErr. Theorems in `Prop_Ga.v`. Gamma > 0 and Nesterov momentum are not covered (with momentum the objective is not monotone). The bounds in the unbounded case need a box that leaves room for all iterations. The Euclidean norm of the stopping test enters through what its success implies (`stop_means`); `norm2_never`: with the default threshold 0 it never succeeds. Finding: with its default parameters the optimizer covers at most 0.31 times the largest slope. `C79_example`, `C79_unbounded_example`: all hypotheses met by concrete objectives, bounded and not..

**C80 Convergence of whole optimizer runs in double precision with any inner optimizer that nearly maximises the acquisition function** (proved). Modelled: `BOModel` with `FpMeanModel`, `FpAcqModel`; inner optimizer an oracle with the stated guarantee. Proof: `pvar_near`: variance near c samples of a cell from the best linear prediction with equal weights on them; cells numbered by `key`, pigeonhole over the cells with multiplicities from `BOCount`; confidence band of C78; rounding from C73 and C76. Theorems in `Prop_Any.v`. Replaces the GridSearch of C78 by an arbitrary inner optimizer; its loss zeta enters the bound once. Whether NLOpt or CMA-ES reach a given zeta is not stated here (external libraries). Range of samples, mean functions and acquisition function as in C78. `C80_example`: all hypotheses met with zeta = 0 by an exhaustive search over all doubles of the box, in a run of 900 iterations, with a loss of at most 0.22 for Exp..

**C81 Optimizer runs in double precision with hyper-parameters learnt on the way: near-maximal samples and convergence** (proved). Modelled: `FpHpModel` (`gp_retrain`) with `FpMeanModel`, `FpAcqModel`, `BOModel`; learner an oracle over the admissible values. Proof: `C81_retrain` makes `gp_life` an invariant across changes of the parameters; run invariant of `BORun` with the parameters as part of the model; step lemmas of C77 and C80 at the parameters of the moment. Theorems in `Prop_Hp.v`. Removes the restriction of C77, C78 and C80 to fixed hyper-parameters. The model carries the hyper-parameters next to the GP. The learnt values have to stay in the range of C70 (signal variance 2^-100 to 1, noise 0.0099 to 0.9, length scales at least lam); the gradient-based learners of limbo are not bounded, so this is a hypothesis. Learning of mean-function parameters is not included. `C81_example`, `C81_converges_example`, `C81_grid_example`: all hypotheses met by runs in which the signal variance switches between 1 and 1/2 after every iteration..

**C82 GP-UCB in double precision: the computed exploration weight, convergence of optimizer runs, and the first iteration with GridSearch** (partial). Modelled: `AcquiModelF` (`gp_ucb_beta_F`) with `FpHpModel`, `FpAcqModel`, `BOModel`, `OptModel` (`grid_search`). Proof: relative errors through pow, log and sqrt; `run_later` (iterations with number at least 1) replaces the counting of C78; regret of C80 at the weight of the iteration; `C15_grid_search_best` against a NaN weight. Theorems in `Prop_GpUcb.v`. (1) and (2) are proved; (3) is false of the code and refuted, which is why (2) assumes that the inner optimizer returns a point of the box in the first iteration of a call (RandomPoint does; for NLOpt and libcmaes, which are outside the model, it is an assumption). `run_later` in BOLater.v: in every run, the iterations with number at least 1 are all but at most one per call. `C82_libm_example`, `C82_example`: all hypotheses met by a run of 900 iterations with changing hyper-parameters. `C82_loss_example`: in dimension 1 after 900 iterations the loss is below 1/2 for objectives of norm up to 5/2. In dimension 2 the bound exceeds 1 for runs of 1000 samples, because the weight of GP-UCB is about 7..

**C83 Regret of whole optimizer runs in double precision: all but few chosen samples nearly maximise the objective** (proved). Modelled: models of C81 and C82. Proof: `few_new`, `few_revisit`: a cell with k earlier samples only gives good samples, so at most k bad ones per cell; regret of each other iteration from C78 and C80. Theorems in `Prop_Regret.v`. Strengthens C78, C80, C81 and C82 from the best sample to the whole sequence of samples (up to 1000). `C83_example`: a run of 900 iterations with changing hyper-parameters in dimension 2, of which at most 432 are worse than any point by more than 0.28 (no loss exceeds 1/2). `C83_grid_example`: 600 iterations with GridSearch, at most 500 worse by more than 1/5. `C83_gp_example`: GP-UCB, hypotheses met by a run of 900 iterations..

**C84 UCB with a small alpha stays at its first sample for ever** (proved). Modelled: models of C77 and C78. Proof: `row_sums`: the inverse of the matrix of n equal samples has row sums 1/(n sf2 + s); exact UCB at x0 and elsewhere; C73 for the rounding; `run_inv_ne`, the invariant of runs with an initial sample. Theorems in `Prop_Stuck.v`. `C84_stuck` is the positive statement, for at least one initial sample (then the acquisition optimizer is never asked on a model without data: `run_inv_ne`). `C84_default_alpha_refuted` shows that the norm hypothesis of C78 cannot be dropped: all its other hypotheses hold, for every number n <= 999 of iterations. `C84_example`: the hypotheses of `C84_stuck` hold together, with completed runs..

## 4. Findings (properties false of the code, or preconditions it does not state)

Each is proved as a `*_refuted` theorem unless marked (read).

* **Initialisation.** `GridSampling` accumulates `1/bins`: with bins = 9 (and others) the upper bound of every dimension is never sampled (C11).  `RandomSamplingGrid` draws from bins + 1 values.  A coordinate of the Latin hypercube can be exactly 1, the upper end of the last stratum (C10).
* **GridSearch** with bins = 10 evaluates and may return coordinates 1.0999999999999999, outside [0,1] (C16); a grid line whose values are all NaN or -infinity makes it evaluate an uninitialised vector (C15).
* **par::max**: the value is schedule independent, the argument is not on ties (C17).  `ParallelRepeater` returns its starting point when no repetition beats -FLT_MAX.
* **Logs** repeat their header after a later `optimize(..., reset = true)` (C09).
* **Archives.** Every strict prefix of a binary matrix file is silently accepted (C37); an empty list of vectors is written but cannot be loaded, in both formats (C36, C38); a text archive loses the shape of an empty matrix (C38), and it writes 15 or 16 significant digits where 17 are needed, so that 1 and the next double give the same file (`C38_lossless_refuted`): a GP reloaded from text without recomputation does not predict exactly the same as the saved one.
* **pareto `sort_2objs`** (unused) does not compute the Pareto set (C44).
* **GP.** The cached inverse is stale after `set_h_params` without recomputation and after `load(archive, false)` (C29); `compute_log_lik` after `load(archive, false)` combines matrices of incompatible sizes (C39); with several outputs the log-likelihood counts the log-determinant and constant once (C30); leave-one-out with `mean::Data` uses a prior mean that contains the left-out observation (C31).
* **MultiGP** with `mean::Data`: `add_sample` and `compute` differ; `recompute(true, false)` leaves stale predictions (C34); `load` with its default recomputation changes the predictions (C53).
* **SparsifiedGP**: overflowing distances let more than `max_points` points survive; a dimension above `max_points` runs `partial_sort` out of range; ties make the kept set depend on the schedule (C35).
* **Acquisition functions.** An unexplored point may rank below an explored one under UCB (C40); `GP_UCB` is NaN at iteration 0, the first iteration of every call (C41), where `GridSearch` therefore returns memory it never wrote (C82); EI keeps a stale incumbent when the model is retrained on as many samples, and may read `_f_max` uninitialised with two threads (C43).
* **ECI** takes a constraint predicted with a standard deviation below 1e-10 as satisfied, even when it is surely violated (C54).  **UCB_IMGPO** is NaN for nu above (pi M)^2/12; IMGPO labels cells with the constant 0.05 in place of the parameter nu (C55).
* **acqui::Ehvi** passes predicted variances where `ehvi2d` expects standard deviations.  `ehvi2d` skips every cell when a deviation is 0 and the mean is level with a point of the front, overestimates when a point of the front is below the reference point, and uses constants of ten digits (C56).  `acqui::Ehvi::dim` calls a method the models do not have (read).
* **Hypervolume** (`stat::HyperVolume`, `src/hv`): with one objective the logged value is the square of the height; an observation below the reference point makes the value too small, so that adding an observation can lower the logged hypervolume (C57).
* **Multi-objective optimizers**: without initial samples `_update_models` reads `_samples[0]`; `Nsbo` without the sferes library draws from an empty Pareto model (`rand() % 0`); after `Ehvi::optimize` returns, `pareto_data()` lacks the last sample; when no acquisition value exceeds -FLT_MAX (NaN), the point evaluated is a zero vector of dimension 1 (C58).
* **NLOpt optimizers** keep their `nlopt::opt` object: the bounds of a bounded call stay for later unbounded calls; a call with another dimension throws (bounded) or silently returns its start (unbounded); a bounded call that starts outside the box returns this start, because the exception is caught, so that `ParallelRepeater<NLOpt…>`, which perturbs its start by epsilon, may propose points outside the box (C59).
* **GPLikelihood** (stat/gp_likelihood.hpp) calls `model().get_lik()`; no model of the library has that member (it is `get_log_lik`), so the statistic does not compile (read).  `gp_<n>.dat` uses the accumulated grid of C11 and may omit the upper bound.
* **SPGP: `optimize_hyperparams()` leaves the factors of the old parameters in place** (C63, `C63_optimize_refuted`). The public method replaces kernel parameters, noise and pseudo-inputs but not `_L`, `_Lm`, `_bet`; the next prediction mixes both and can return a negative variance. `_compute()` afterwards would be needed.
* **SPGP: `mu(v)` and `sigma(v)` treat the point as a column of one-dimensional points** (C63, `C63_mu_sigma_refuted`). `query` transposes its argument, `mu` and `sigma` do not; for `dim_in > 1` the sizes in the kernel computation disagree (assertion or out-of-bounds access in every state reachable by a history).
* **SPGP: `add_sample` before `compute` reads `_del`, which nobody has set** (C63, `C63_add_first_refuted`); **several outputs never work** (`C63_outputs_refuted`: sizes of `_bet` disagree); **one sample, or a coordinate that is the same in all samples, gives log(0) in the start point** (`C63_constant_refuted`).
* **SPGP: the start point of the optimization scrambles the pseudo-inputs** (C63, `C63_start_refuted`). They are written coordinate by coordinate and read sample by sample, so with more than one pseudo-input and more than one dimension the pseudo-inputs from which the optimization starts are not samples at all.
* **SPGP: the likelihood loses half a logarithm of the noise when `n - m` is odd** (C64, `C64_odd_refuted`). `(n - _m) / 2 * std::log(sig)` divides integers; the objective of the hyper-parameter optimization is then not the likelihood (it favours larger noise), and the gradient returned with it is that of the true likelihood: the component of the noise is off by exactly 1/2 (C65, `C65_odd_refuted`).
* **Benchmarks: some declared optima are roundings** (C66, `C66_branin_refuted`, `C66_camel_refuted`). The third row of `BraninNormalized::solutions()` uses 9.42478 for 3 pi, and both rows of `SixHumpCamel::solutions()` have four digits. A run that finds a better point than the declared one is reported as *less* accurate; the error is proved to be at most 1e-10 and 1e-7. Also, `t_osz` lacks the parentheses of the definition it is taken from (0.049 multiplies only the first sine); the optimum of `Ellipsoid` is not affected.
* **ParEGO, saving** (C67): `GPParego` inherits `save`/`load`, which do not know `_raw_observations`. After any `load`, the first `add_sample` calls `compute` with n + 1 samples and one observation (assertion, or out-of-range reads without assertions). Proved for every history (`C67_add_after_load`).
* **MultiGP<SparsifiedGP>** cannot be recomputed (nor loaded with `recompute = true`) once more than `max_points` samples have been given: `observations()` keeps them all, `samples()` those kept by the first output, and `recompute()` passes both to `compute()` (C68). Two outputs may keep different samples when distances tie.
* **The factorisation of the kernel matrix can stop silently** (C69, `C69_exact_pd_refuted`, `C69_absorbed_noise_refuted`).  `_compute_full_kernel` ignores `LLT::info()` (gp.hpp:565) and `_compute_incremental_kernel` takes the square root of an unchecked difference (gp.hpp:596-597).  For kernel matrices that are positive definite but with a smallest eigenvalue below the rounding error the computed pivot is 0 and the mean is NaN.  The noise added to the diagonal (kernel.hpp:83) protects only while it is not absorbed: with the default noise 0.01 and a signal variance 2^48 the computed diagonal equals the kernel value and a point sampled twice stops the factorisation.
* **A tiny length scale makes the kernel a NaN** (C70, `C70_tiny_scale_refuted`).  `_l` is `exp(p)` of an unbounded hyper-parameter.  Below 2^-538 (p < -373) `_l * _l` is 0, so for `Exp` (exp.hpp:96-98) and `MaternFiveHalves` (matern_five_halves.hpp:107-110) `k(x, x)` is 0/0, a NaN, where it should be the signal variance.  The kernel matrix and all predictions are NaN from then on.  `MaternThreeHalves` divides by `_l` only and fails only when `exp(p)` itself is 0.
* **Uncertainty is lost for objectives of small scale** (C75). `_sigma` (gp.hpp:623) replaces a variance of at most 2^-52 by 0. The threshold is absolute: when the signal variance is at most 2^-53 (observations of magnitude 1e-8, once the kernel's `sigma` has been learned; it has no lower bound), the variance is 0 at every point. UCB is then the mean for every alpha, EI is 0 everywhere, and `GridSearch` on EI samples the origin in every iteration.
* **GradientAscent's defaults cannot cross the unit box** (C79): 300 iterations with step 0.001 move no coordinate by more than 0.31 times the largest slope of the objective; for the linear objective x_0 a run from 0 ends more than 2/3 away from the maximum. The method itself converges (C79_converges), with the rate |z - start|^2/(2*alpha*T); the defaults give alpha*T = 0.3.
* **UCB with the default alpha can stay at its first sample for ever** (C84): with alpha = 0.5, the squared exponential kernel with its default parameters, GridSearch with 4 steps and an objective of magnitude 64, no iteration leaves the initial sample, although a grid point is better by more than 21. alpha has to be of the order of the norm of the objective (C78, C80), so the objective should be scaled to it.
* **A reset keeps the learned hyper-parameters**: `optimize(..., reset = true)` discards samples and counters, but the GP keeps kernel and mean parameters of the earlier call, since `compute` rebuilds them only when the dimensions change (C61).
* **Points outside the box** are evaluated by a bounded optimizer with `GridSearch` and 10 bins, `ParallelRepeater` over NLOpt, or Adam when the gradient overflows (C60).
* **MaxPredictedValue** stops when the prediction is NaN (C49).
* **CBOptimizer** trains its model with the value of the last initial point for every later sample; with statistics peeking at the best observation, with the last feasible one; `best_sample()` indexes the unfiltered samples with an index into the filtered observations; the product of two negative constraint values counts as feasible; no constraints or no initial points are undefined behaviour (C46).
* **GPParego** draws of zeros only give NaN weights (C47).
* **IMGPO**: a second call without reset adds a second root box overlapping the leaves (C50), evaluates the centre again and records the answer of the first call in place of the new one (C51); a leaf labelled by the model and evaluated later keeps the label as its value, so observations are not used to rank it (C51).  Depth 1000 overruns the vector of levels (C50 gives the safe range).  Step (iii) looks only at the first simulated cell of each level, with the centre of the wrong cell (read).
* Preconditions met on the way: with an optimised noise the initial noise has to be positive (C21); `BaseMean::grad` asserts for means without parameters; objective vectors for the Pareto code need a common length of at least two and no NaN (C44).

## 5. Which parts of the code are modelled

Modelled function by function (rounding only where section 1 says binary64):

* `bayes_opt/bo_base.hpp`, `bayes_opt/boptimizer.hpp`, `stop/*.hpp`, `init/*.hpp`, `stat/{samples,observations,aggregated_observations,best_samples,best_observations,best_aggregated_observations,stat_base,gp,gp_acquisitions,gp_kernel_hparams,gp_mean_hparams,gp_prediction_differences,console_summary}.hpp`
* `opt/{optimizer,rprop,adam,gradient_ascent,grid_search,random_point,chained,parallel_repeater,nlopt_base,nlopt_grad,nlopt_no_grad,cmaes}.hpp` (the bindings; the libraries are parameters), `tools/{parallel,math,random_generator}.hpp` (TBB and sequential versions of `par::max`, `par::loop`, `par::replicate`)
* `kernel/*.hpp`, `mean/*.hpp`, `model/gp.hpp`, `model/gp/*.hpp`, `model/multi_gp.hpp`, `model/multi_gp/parallel_lf_opt.hpp`, `model/sparsified_gp.hpp`, `acqui/*.hpp`
* `serialize/*.hpp`, `src/external/rand_utils.hpp` (`seed_seq_fe`)
* `experimental/tools/pareto.hpp`, `experimental/acqui/{eci,ucb_imgpo,ehvi}.hpp`, `src/ehvi/helper.cc` and `ehvi2d` of `src/ehvi/ehvi_calculations.cc`, `experimental/model/{gp_parego,spgp}.hpp`, `experimental/bayes_opt/{cboptimizer,imgpo,bo_multi,ehvi,nsbo,parego}.hpp` (NSGA-II itself is a parameter), `experimental/stat/{hyper_volume,pareto_front}.hpp`, `src/hv/hypervol.c` without its `main` and file reading

Not modelled:

* the library code behind Eigen, boost, TBB, libcmaes, NLopt, libm (their documented contracts are stated where used), the C++ type system and template dispatch (`boost::parameter`), memory allocation, file-system failures, signed overflow of the iteration counters
* `tools/sys.hpp`, `tools/macros.hpp`, `stat/gp_likelihood.hpp` (does not compile)
* `experimental/stat/pareto_benchmark.hpp`, the rest of `src/ehvi` (three objectives, Monte Carlo), the drivers of the benchmarks and `Hartmann3`, `Hartmann6`, examples, tutorials and tests
* rounding in the Gaussian-process code, except the linear algebra behind mean and variance (C69), the kernels (C70, without the ARD factor A) and the log-likelihood (C71); acquisition functions other than UCB, GP-UCB and EI (C73, C82, C45) and the gradients of kernels and likelihoods are over R; the mean functions are treated in C76, changes of the hyper-parameters in C81 (the learnt values are arbitrary).  C69 assumes IEEE 754 arithmetic with gradual underflow and rounding to nearest

## 6. Trusted base

* The Coq 8.16.1 kernel (including `vm_compute`, used for concrete witnesses).
* The axioms of the standard library listed below (they come with the real numbers and classical logic); no other axiom.  Theorems of Flocq and Coquelicot are used, but these libraries add no axiom of their own.
* The hand translation of the C++ text into the model, and the contracts assumed for external calls, stated at the definitions.

| axioms listed by `Print Assumptions` | theorems |
|---|---|
| none (closed under the global context) | `C01_pairing`, `C02_rejected_evaluation`, `C02_add_new_sample`, `C02_optimize_exception`, `C03_exact_budget`, `C03_termination`, `C04_resume`, `C04_total_iterations`, `C05_model_in_sync`, `C06_hp_schedule`, `C07_stop_consults_in_order`, `C07_stop_is_disjunction`, `C07_returns_when_criteria_hold`, `C08_incumbent`, `C08_empty_is_undefined`, `C11_grid_points`, `C11_grid_points_evaluated`, `C11_covers_the_upper_bound_refuted`, `C12_random_sampling`, `C12_random_sampling_draws`, `C12_random_grid_draws`, `C13_rprop_box_or_nan`, `C13_adam_box_or_nan`, `C13_gradient_ascent_box_or_nan`, `C14_rprop_returns_best`, `C14_rprop_evaluations`, `C14_rprop_never_worse_than_start`, `C15_grid_search_best`, `C15_grid_search_defined`, `C15_some_good_value_suffices_refuted`, `C16_result_on_grid_partial`, `C16_stays_in_box_refuted`, `C17_par_max_best`, `C17_schedule_independent`, `C17_sequential_agrees`, `C17_argument_schedule_independent_refuted`, `C18_repeater_best`, `C19_chained_composes`, `C19_chained_bounded`, `C19_chained_never_worse`, `C09_logs_list_every_sample`, `C09_best_logs_are_running_maxima`, `C09_logs_after_a_reset_refuted`, `C44_pareto_set`, `C44_schedule_independent`, `C44_sort_2objs_refuted`, `C45_dominate_flag`, `C45_dominance_strict_partial_order`, `C36_matrix_round_trip`, `C36_list_round_trip`, `C36_empty_list_refuted`, `C37_truncation_is_reported_refuted`, `C37_truncated_matrix_never_reported`, `C37_negative_sizes_reported`, `C37_negative_count_reported`, `C38_list_structure`, `C38_matrix_structure`, `C38_lossless`, `C38_empty_matrix_refuted`, `C38_empty_list_refuted`, `C48_param_recreates_the_store`, `C48_seeds_are_recovered`, `C48_generate_injective`, `C32_float_never_lower`, `C32_float_defined`, `C41_iterations_used`, `C43_threads_refuted`, `C43_threads_after_first_call`, `C49_no_observations`, `C49_stops_iff_partial`, `C49_nan_refuted`, `C35_pairs_kept`, `C35_small_unchanged`, `C35_infinite_distance_refuted`, `C35_dimension_refuted`, `C35_schedule_refuted`, `C46_best_observation`, `C46_best_sample_partial`, `C46_training_partial`, `C46_models_partial`, `C46_counters`, `C46_stale_training`, `C46_best_sample_refuted`, `C46_training_refuted`, `C46_training_filtered_refuted`, `C46_signs_refuted`, `C46_no_constraints_refuted`, `C46_no_init_refuted`, `C58_ehvi_partial`, `C58_nsbo_partial`, `C58_pareto_front_stat`, `C58_no_samples_refuted`, `C58_nsbo_without_sferes_refuted`, `C58_final_front_refuted`, `C58_fallback_refuted`, `C59_nlopt_partial`, `C59_nlopt_in_box`, `C59_nlopt_outside`, `C59_nlopt_outcome`, `C59_cmaes`, `C59_cmaes_unbounded`, `C59_cmaes_configuration`, `C59_cmaes_zero_tolerance_refuted`, `C59_nlopt_bounds_stay_refuted`, `C59_nlopt_other_dimension_refuted`, `C59_nlopt_box_refuted`, `C60_grid_search_refuted`, `C60_repeater_nlopt_refuted`, `C60_adam_refuted`, `C61_parameters_without_learning`, `C62_model_logs`, `C62_console`, `C62_gp_files`, `C72_terminates`, `C75_ei_zero`, `C81_retrain` |
| `functional_extensionality_dep` | `C72_outcomes`, `C72_lock_free`, `C72_each`, `C72_distances`, `C72_most_dense`, `C72_collect` |
| `functional_extensionality_dep`, `sig_forall_dec` | `C10_lhs_stratified`, `C24_prior_without_data`, `settled_dataless`, `settled_computed`, `C34_query_schedules`, `C47_weights`, `C47_value`, `C47_monotone`, `C47_strictly_monotone`, `C47_zero_draw_refuted`, `C50_leaves_tile_the_cube`, `C50_split`, `C50_no_undefined_behaviour`, `C50_second_call_refuted`, `C51_no_point_evaluated_twice`, `C51_every_evaluation_is_recorded`, `C51_iteration_budget`, `C51_sampled_value_refuted`, `C51_second_call_refuted`, `C57_filter`, `vol_box`, `C57_one_objective_refuted`, `C60_default_optimizers`, `C66_camel_partial`, `C66_camel_refuted`, `C69_exact_pd_refuted`, `C69_absorbed_noise_refuted` |
| `functional_extensionality_dep`, `sig_forall_dec`, `sig_not_dec` | `C24_valid_histories_succeed`, `C24_exact_posterior`, `C25_final_data_only`, `C25_incremental_equals_batch`, `C26_order_irrelevant`, `C27_variance_bounds`, `C27_more_data_less_variance`, `C28_interpolation`, `C33_ard_initially_the_wrapped_mean`, `C33_get_after_set`, `C33_parameters_determine_mean`, `C33_sizes`, `C33_gradient`, `C33_data_mean_is_the_average`, `C39_load_save_predicts_the_same`, `C39_stays_equivalent`, `C40_monotone`, `C34_compute_schedules`, `C34_add_schedules`, `C34_recompute_schedules`, `C47_model`, `C56_value_unique`, `C56_zero_deviation_refuted`, `C57_hypervolume`, `C57_stat`, `vol_unique`, `C57_below_reference_refuted`, `C67_add_after_load` |
| `classic`, `functional_extensionality_dep`, `sig_forall_dec`, `sig_not_dec` | `C10_float`, `C10_half_open_refuted`, `C11_grid_values_partial`, `C12_random_sampling_grid`, `C13_rprop_in_box`, `C13_adam_in_box`, `C13_gradient_ascent_in_box`, `C13_clamp_nearest`, `C16_grid_search_values_partial`, `C18_starts_within_epsilon`, `C38_close`, `C38_lossless_refuted`, `C20_kernel_values`, `C20_initial_variance`, `C20_noise_term`, `C20_noise_value`, `C21_get_after_set`, `C21_set_after_get`, `C21_parameters_determine_kernel`, `C21_sizes`, `C21_initial_parameters`, `C22_gradient`, `C23_gram_positive_definite`, `C24_limbo_gp`, `C29_cached_inverse_partial`, `C29_stale_inverse_after_set_params_refuted`, `C29_stale_inverse_after_load_refuted`, `C39_limbo_gp`, `C39_likelihood_after_load_refuted`, `C30_log_likelihood_value`, `C30_kernel_gradient`, `C30_mean_gradient`, `C30_limbo_gp`, `C30_two_outputs_refuted`, `C31_leave_one_out`, `C31_loo_gradient`, `C31_limbo_gp`, `C31_limbo_gradient`, `C31_data_mean_refuted`, `C32_kernel_lf_opt`, `C32_mean_lf_opt`, `C32_kernel_mean_lf_opt`, `C32_kernel_loo_opt`, `C32_limbo_gp`, `C40_ucb_value_partial`, `C40_monotone_float`, `C40_unexplored_refuted`, `C41_weight_partial`, `C41_iteration_zero_refuted`, `C41_nan_refuted`, `C42_expected_improvement`, `C42_limbo_gp`, `ei_is_expectation`, `C43_current_incumbent_partial`, `C43_stale_incumbent_refuted`, `C34_independent_outputs`, `C34_exact_posterior_partial`, `C34_incremental_equals_batch_partial`, `C34_data_mean_refuted`, `C34_recompute_refuted`, `C35_thins`, `C35_exact_posterior_of_kept`, `C47_monotone_float`, `C47_weights_float`, `C52_parallel_lf_opt`, `C53_load_predicts_the_same`, `C53_load_recompute`, `C53_load_recompute_predicts_the_same_partial`, `C53_load_recompute_refuted`, `C54_eci_partial`, `C54_certain_constraint_refuted`, `C55_ucb_imgpo`, `C55_default_is_finite`, `C55_label_is_the_bound_partial`, `C55_label_refuted`, `C55_not_a_number_refuted`, `C56_ehvi2d_partial`, `C56_acqui_partial`, `C56_acqui_refuted`, `C56_constants_refuted`, `C56_below_reference_refuted`, `C60_in_the_box_partial`, `C60_default_gradient_optimizers`, `C60_grid_powers`, `C61_exact_posterior_in_every_run`, `C61_limbo`, `C61_reset_keeps_parameters`, `C62_predictions_precede_observations`, `C63_posterior`, `C63_mu_sigma`, `C63_mu_sigma_refuted`, `C63_add_first_refuted`, `C63_outputs_refuted`, `C63_constant_refuted`, `C63_start_refuted`, `C63_optimize_refuted`, `C64_value`, `C64_likelihood_partial`, `C64_odd_refuted`, `C65_gradient`, `C65_history`, `C65_odd_refuted`, `C66_solutions`, `C66_accuracy`, `C66_branin_partial`, `C66_branin_refuted`, `C67_scalarised_posterior`, `C67_limbo`, `C68_posterior`, `C68_exact_posterior_partial`, `C68_lost_pairs`, `C68_recompute_refuted`, `C68_different_samples_refuted`, `C69_factorisation`, `C69_mean`, `C69_mean_finite`, `C69_variance`, `C69_jitter`, `C69_default_noise`, `C70_kernels`, `C70_factor`, `C70_variance`, `C70_mean`, `C70_tiny_scale_refuted`, `C71_logdet`, `C71_loglik`, `C73_variance_floor`, `C73_ucb`, `C73_ucb_choice`, `C73_ei`, `C73_ei_choice`, `C74_modulus`, `C74_ucb`, `C74_ei`, `C74_regret`, `C75_variance_kept_partial`, `C75_variance_kept_refuted`, `C75_flush`, `C75_ucb_mean`, `C75_uncertainty_lost`, `C75_ei_samples_origin`, `C76_centred`, `C76_prediction`, `C76_life`, `C77_ucb`, `C77_ei`, `C77_regret`, `C78_converges`, `C78_approximated`, `C79_ascends`, `C79_converges`, `C79_default_reach`, `C79_default_stops_short`, `C80_converges`, `C80_approximated`, `C81_ucb`, `C81_ei`, `C81_converges`, `C81_grid_converges`, `C82_weight`, `C82_converges`, `C82_grid_first_refuted`, `C83_regret`, `C83_gp_ucb`, `C83_grid_regret`, `C84_stuck`, `C84_default_alpha_refuted` |
