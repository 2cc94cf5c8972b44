{"id": "C01", "title": "One epoch of a DataLoader visits every row exactly once", "statement": "Iterating a finite DataLoader once yields batches whose concatenation is a permutation of the dataset rows (x and z kept paired); without shuffling it is the rows in order. Every batch has exactly batch_size rows except possibly a non-empty shorter last one; with drop_last every batch has exactly batch_size rows, and fewer than batch_size rows are lost.", "quantifier": "every dataset (any number and size of shards), every batch_size >= 1, every shuffle permutation, drop_last true or false", "why_tests_cant": "dataset size, shard layout, batch size and permutation are all unbounded; tests only sample a few combinations", "anchors": ["gpmp/dataloader.py: Dataset.__getitem__", "gpmp/dataloader.py: DataLoader.__iter__", "gpmp/dataloader.py: DataLoader._fetch_batch"]}
{"id": "C02", "title": "len(loader) and loader[i] agree with iteration", "statement": "len(loader) equals the number of batches a finite epoch yields; without shuffling loader[i] is the i-th batch of the epoch for every 0 <= i < len(loader), and indices outside that range raise IndexError.", "quantifier": "every dataset size, batch_size >= 1, drop_last flag and index", "why_tests_cant": "the ceil/floor arithmetic has edge cases at every multiple of batch_size", "anchors": ["gpmp/dataloader.py: DataLoader.__len__", "gpmp/dataloader.py: DataLoader.__getitem__", "gpmp/dataloader.py: DataLoader.__iter__"]}
{"id": "C03", "title": "Dataset indexing is independent of sharding for in-range indices, and only for those", "statement": "dataset[i] returns row i of the concatenation of the shards for every 0 <= i < len(dataset), whatever the shard boundaries (empty shards included); i >= len raises IndexError; a negative index is resolved inside the first shard only, so with several shards dataset[-1] is not the last row.", "quantifier": "every list of shards and every integer index", "why_tests_cant": "sharding layouts and indices are unbounded", "anchors": ["gpmp/dataloader.py: Dataset.__getitem__", "gpmp/dataloader.py: Dataset._compute_shard_bounds"]}
{"id": "C04", "title": "Dataset.subset keeps exactly the requested in-range rows", "statement": "subset(indices) is a dataset whose rows are the rows of the dataset at the sorted in-range requested indices, with multiplicity; out-of-range indices are silently dropped (no error), and the number of rows is the number of in-range indices.", "quantifier": "every sharded dataset and every list of integer indices", "why_tests_cant": "unbounded layouts and index lists", "anchors": ["gpmp/dataloader.py: Dataset.subset"]}
{"id": "C05", "title": "Dataset.split is a partition", "statement": "split returns three datasets that together contain every row exactly once, with the first two sizes floor(r0*n) and floor(r1*n), for any ratios that pass the sum-to-one check exactly and any permutation.", "quantifier": "every dataset size, every non-negative ratios summing to one, every permutation, every sharding", "why_tests_cant": "permutations and real ratios cannot be enumerated", "anchors": ["gpmp/dataloader.py: Dataset.split", "gpmp/dataloader.py: Dataset.subset"]}
{"id": "C06", "title": "k-fold indices are a partition (NumPy backend)", "statement": "k_fold_indices(n, k) returns exactly k (train, val) pairs; the k validation sets partition {0..n-1}, their sizes differ by at most one, and each train set is exactly the complement of its validation set. It raises for k = 1 (and for k <= 0).", "quantifier": "every n >= 0, every k, every permutation", "why_tests_cant": "n, k and the permutation are unbounded", "anchors": ["gpmp/dataloader.py: Dataset.k_fold_indices"]}
{"id": "C07", "title": "k-fold on the Torch backend: exact failure set", "statement": "With the Torch backend's split function, k_fold_indices(n, k) returns the same folds as the NumPy backend except on an exactly characterised set of (n, k) where the split boundaries are mistaken for section sizes and the call raises; the set contains every n divisible by 3 with k = 3.", "quantifier": "every n >= 0 and every k >= 1", "why_tests_cant": "the failing pairs form an infinite sparse family; tests with other pairs pass", "anchors": ["gpmp/num/torch_backend.py: split", "gpmp/dataloader.py: Dataset.k_fold_indices"]}
{"id": "C08", "title": "Sharded reducers equal the reducers on concatenated data", "statement": "x_min, x_max, x_mean and x_var of a sharded dataset equal the minimum, maximum, mean and unbiased variance of the concatenated rows.", "quantifier": "every non-empty list of non-empty shards of real rows", "why_tests_cant": "unbounded data", "anchors": ["gpmp/dataloader.py: Dataset._reduce_min", "gpmp/dataloader.py: Dataset._reduce_max", "gpmp/dataloader.py: Dataset._reduce_mean", "gpmp/dataloader.py: Dataset._reduce_var"]}
{"id": "C09", "title": "DataLoader.reduce_mean is the size-weighted mean over batches", "statement": "Averaging a criterion over the batches of a loader weights each batch by its number of rows, so for a row-wise mean criterion the result is the mean over all rows of the epoch regardless of batch_size.", "quantifier": "every dataset, batch size, and row function", "why_tests_cant": "unbounded data and batch sizes", "anchors": ["gpmp/dataloader.py: DataLoader.reduce_mean"]}
{"id": "C10", "title": "Infinite loader with drop_last and too few rows never yields", "statement": "An infinite loader yields the epochs one after the other for ever, each a full pass; but when drop_last is set and the dataset has fewer rows than batch_size, iteration never yields a batch and never stops.", "quantifier": "every dataset size, batch size and number of steps", "why_tests_cant": "non-termination cannot be observed by a finite test", "anchors": ["gpmp/dataloader.py: DataLoader.__iter__"]}
{"id": "C11", "title": "Scalers invert", "statement": "inverse_transform(transform(x)) = x for the min-max and the standard scaler, whatever the fitted data; min-max output lies in [0,1] on the fitted data, with constant columns mapped to a constant.", "quantifier": "every fitted data set and every real input", "why_tests_cant": "real inputs are unbounded", "anchors": ["gpmp/dataloader.py: MinMaxScaler", "gpmp/dataloader.py: StandardScaler"]}
{"id": "C12", "title": "Param normalisation round-trips and isolates updates", "statement": "Setting a normalised (or denormalised) value and reading it back gives the same value, log-scale and identity normalisations are inverse of one another, and an update of one path leaves every other entry unchanged.", "quantifier": "every parameter vector, every path, every real value (positive for log scale)", "why_tests_cant": "unbounded vectors and update sequences", "anchors": ["gpmp/parameter/param.py: Param"]}
{"id": "C13", "title": "Param.concat and slicing preserve entries", "statement": "Concatenating two Params then selecting by path returns the entries of the parts, in order; the indices stored per path are exactly the positions of the entries.", "quantifier": "every pair of Params", "why_tests_cant": "unbounded structure", "anchors": ["gpmp/parameter/param.py: Param.concat", "gpmp/parameter/param.py: Param.select_by_path_prefix"]}
{"id": "C14", "title": "Param.check_bounds compares values in the wrong space", "statement": "check_bounds is true exactly when every denormalised value lies within the stored bounds; since anisotropic Params store bounds for the log-space value, a parameter whose log value is inside its bounds can be reported as out of bounds and vice versa.", "quantifier": "every Param vector", "why_tests_cant": "the disagreement depends on real values", "anchors": ["gpmp/parameter/param.py: Param.check_bounds", "gpmp/parameter/param.py: make_anisotropic_param"]}
{"id": "C15", "title": "DataFrame selection keeps labels attached to data", "statement": "Selecting rows/columns of a DataFrame by index keeps each datum with its own labels - the implementation builds row labels from the column selection and conversely, and the exact set of selections for which labels stay attached is characterised.", "quantifier": "every table, every row/column selection", "why_tests_cant": "unbounded tables", "anchors": ["gpmp/misc/dataframe.py: DataFrame.__getitem__"]}
{"id": "C16", "title": "The gammaln cache is transparent", "statement": "Whatever sequence of maximum orders has been requested before, the cached table returned for order p contains log Gamma(i) at each index the Matern kernel reads, i.e. caching never changes the value returned for p >= -1 (for p <= -2 it does).", "quantifier": "every history of requests", "why_tests_cant": "state depends on an unbounded history of calls", "anchors": ["gpmp/num/shared.py: compute_gammaln"]}
{"id": "C17", "title": "Configuration updates: validation and atomicity", "statement": "After any sequence of configuration calls, raising or not, the backend is unset, numpy or torch and the dtype is float64; a successful update changes exactly the settings it mentions; a failing update changes no attribute, but a valid backend given with a bad dtype has already been written to the environment and decides which backend is picked later; set_backend(None) raises after having unset the backend.", "quantifier": "every history of configuration calls", "why_tests_cant": "histories are unbounded", "anchors": ["gpmp/config.py"]}
{"id": "C18", "title": "Prior hyperparameter defaults: validity invariant and non-atomic failure", "statement": "After any sequence of successful or failing calls that set default prior hyperparameters with non-NaN values, gamma > 1, 0 < coverage < 1, alpha > 0 and range factor > 0; a failing call may still have updated earlier arguments; NaN is rejected for the coverage but silently accepted for the other three.", "quantifier": "every history of calls with every float argument including NaN and infinities", "why_tests_cant": "histories and float arguments are unbounded", "anchors": ["gpmp/kernel/prior_defaults.py: set_default_prior_hyperparameters", "gpmp/kernel/prior_defaults.py: set_default_prior_hyperparameters_from_kwargs"]}
{"id": "C19", "title": "Zero-mean kriging is the best linear predictor", "statement": "For a positive definite observation covariance, the returned weights minimise the mean squared prediction error among all linear predictors, and the returned variance equals the minimum.", "quantifier": "every number of points, every joint PSD covariance with positive definite data block", "why_tests_cant": "universally quantified over matrices of every size", "anchors": ["gpmp/core/kriging.py: kriging_predictor_with_zero_mean", "gpmp/core/kriging.py: _compute_posterior_variance"]}
{"id": "C20", "title": "Kriging interpolates at data points", "statement": "When the cross-covariance block equals the data covariance block the predictor returns the observations exactly with zero posterior variance (covariance).", "quantifier": "every size, invertible K, every observation vector", "why_tests_cant": "unbounded sizes, real values", "anchors": ["gpmp/core/kriging.py: kriging_predictor_with_zero_mean", "gpmp/core/kriging.py: kriging_predictor", "gpmp/core/model.py: Model.predict"]}
{"id": "C21", "title": "Posterior variance is between zero and the prior variance; posterior covariance is PSD", "statement": "For a joint PSD covariance the zero-mean posterior covariance is symmetric PSD, its diagonal is the returned variance vector, which lies between 0 and the prior variance; adding observations never increases it.", "quantifier": "every size and joint PSD covariance", "why_tests_cant": "unbounded matrices", "anchors": ["gpmp/core/kriging.py: _compute_posterior_variance", "gpmp/core/kriging.py: kriging_predictor_with_zero_mean"]}
{"id": "C22", "title": "Universal kriging weights reproduce the mean basis and are optimal", "statement": "The weights returned by the linear-predictor kriging satisfy the unbiasedness constraint and minimise the mean squared error among all unbiased linear predictors; the returned variance is the attained minimum.", "quantifier": "every size, full column rank basis, K conditionally positive definite", "why_tests_cant": "unbounded matrices", "anchors": ["gpmp/core/kriging.py: kriging_predictor"]}
{"id": "C23", "title": "Universal kriging is equivariant to adding a mean trend", "statement": "Adding P*beta to the observations adds Pt*beta to the prediction and leaves the variance unchanged; prediction equals generalised least squares trend plus simple kriging of the residuals.", "quantifier": "every size, every beta", "why_tests_cant": "unbounded", "anchors": ["gpmp/core/kriging.py: kriging_predictor", "gpmp/core/model.py: Model.predict"]}
{"id": "C24", "title": "Predictions do not depend on the choice of an intrinsic covariance representative", "statement": "Replacing the covariance k(x,y) by k(x,y)+sum of basis functions times arbitrary functions (symmetrised), or applying an invertible change of basis to the mean functions, does not change universal kriging weights nor variance.", "quantifier": "every size and perturbation", "why_tests_cant": "unbounded", "anchors": ["gpmp/core/kriging.py: kriging_predictor"]}
{"id": "C25", "title": "The null-space fallback predictor differs from the main predictor", "statement": "The fallback used when the kriging system cannot be solved would have to agree with the main solver whenever both are defined; it does not: even in one- and two-observation examples with exact arithmetic its weights are not the optimal ones, and it reports a wrong variance. In exact arithmetic, the fallback can only succeed when the main system is already nonsingular.", "quantifier": "existence of witness inputs, and all inputs for the last part", "why_tests_cant": "the fallback is reached only on numerical failure, which tests do not trigger", "anchors": ["gpmp/core/kriging.py: _kriging_predictor_nullspace"]}
{"id": "C26", "title": "predict: clipping, centring, and shapes of outputs", "statement": "Model.predict's mean is weights times centred observations plus the prior mean, its variance is never negative when zero_neg_variances is set, and when clipping is inactive equals the kriging variance.", "quantifier": "every input arrays and option flags", "why_tests_cant": "unbounded", "anchors": ["gpmp/core/model.py: Model.predict", "gpmp/core/kriging.py: select_predictor"]}
{"id": "C27", "title": "Noise handling depends on object identity of the inputs", "statement": "For the noisy covariance, predicting at the very same array object as the observations adds the noise to the cross covariance, so predictions reproduce the noisy data exactly, whereas an equal copy of the array gives smoothed predictions.", "quantifier": "every data set with positive noise", "why_tests_cant": "aliasing is invisible to value-based tests", "anchors": ["gpmp/kernel/matern.py: maternp_covariance", "gpmp/core/kriging.py: kriging_predictor_with_zero_mean"]}
{"id": "C28", "title": "Fast leave-one-out equals explicit refitting (zero mean)", "statement": "For each i the fast LOO prediction, variance and error are those of predicting z_i from the other n-1 observations with the same covariance.", "quantifier": "every n >= 1 and PD covariance and observations", "why_tests_cant": "unbounded sizes", "anchors": ["gpmp/core/loo.py: loo_with_zero_mean", "gpmp/core/loo.py: loo"]}
{"id": "C29", "title": "Fast leave-one-out equals explicit refitting (linear predictor mean)", "statement": "For each i with the remaining basis of full rank, the fast LOO prediction and variance equal universal kriging of z_i from the other observations; the CPD (contrast) and SPD formulas agree.", "quantifier": "every n, q, full rank basis, PD or CPD covariance", "why_tests_cant": "unbounded sizes", "anchors": ["gpmp/core/loo.py: loo_with_linear_predictor_cpd", "gpmp/core/loo.py: loo_with_linear_predictor_spd"]}
{"id": "C30", "title": "The zero-mean likelihood is the Gaussian negative log-likelihood", "statement": "The Cholesky-based value equals (n log 2pi + log det K + z' K^-1 z)/2 for positive definite K, and the factorisation fails exactly when K is not positive definite, in which case +infinity is returned (Torch) or an exception escapes (NumPy).", "quantifier": "every n, symmetric K, z", "why_tests_cant": "unbounded matrices", "anchors": ["gpmp/core/likelihood.py: negative_log_likelihood_zero_mean", "gpmp/core/linalg.py"]}
{"id": "C31", "title": "REML is invariant to the trend and to the contrast basis", "statement": "The restricted likelihood does not change when any P*beta is added to the observations, nor with the choice of orthonormal contrast basis, nor when the covariance is changed by terms in the span of P; it equals the closed form with det K, det P'K^-1 P and det P'P.", "quantifier": "every n, q, K, P full rank, z, beta, orthogonal complement basis", "why_tests_cant": "unbounded matrices", "anchors": ["gpmp/core/likelihood.py: negative_log_restricted_likelihood"]}
{"id": "C32", "title": "Fisher information matrix is symmetric PSD", "statement": "The Fisher information returned is symmetric positive semidefinite whatever the (finite-difference or exact) symmetric derivative matrices, and equals tr(K^-1 dK_i K^-1 dK_j)/2.", "quantifier": "every n, number of parameters, PD K, symmetric derivatives", "why_tests_cant": "unbounded", "anchors": ["gpmp/core/fisher.py: fisher_information"]}
{"id": "C33", "title": "The autodiff Fisher variant is not the Fisher information", "statement": "The Torch Hessian-based variant returns the same matrix as the finite-difference one - it does not: for K = exp(theta) K0 its value is 0 whereas the Fisher information is n/2.", "quantifier": "existence of a witness for every n", "why_tests_cant": "the two backends are never compared", "anchors": ["gpmp/core/fisher.py: fisher_information_torch"]}
{"id": "C34", "title": "Finite-difference derivative order", "statement": "derivative_finite_diff is exact for polynomials of degree at most four and its error on degree five is exactly proportional to h^4.", "quantifier": "every polynomial, point and non-zero step", "why_tests_cant": "real inputs unbounded", "anchors": ["gpmp/num/shared.py: derivative_finite_diff"]}
{"id": "C35", "title": "Conditional sample paths interpolate and have the posterior covariance", "statement": "Conditioning an unconditional path on observations by kriging residuals reproduces the observations at the data points, leaves a path already agreeing with the data unchanged, and maps the prior covariance to exactly the posterior covariance.", "quantifier": "every size, K, weights, data, unconditional path", "why_tests_cant": "unbounded", "anchors": ["gpmp/core/sample_paths.py: conditional_sample_paths", "gpmp/core/sample_paths.py: conditional_sample_paths_parameterized_mean"]}
{"id": "C36", "title": "Unconditional sample paths have the requested covariance", "statement": "The factor used to generate sample paths satisfies C C' = K for both the Cholesky and the SVD method on PSD K.", "quantifier": "every n and PD K", "why_tests_cant": "unbounded matrices", "anchors": ["gpmp/core/sample_paths.py: sample_paths"]}
{"id": "C37", "title": "Matern half-integer kernel: normalisation, bounds, monotonicity, closed form", "statement": "maternp_kernel(p, h) is 1 at h=0, lies in (0,1] for h >= 0, is strictly decreasing, equals the factorial closed form, coincides with the dedicated nu=3/2 kernel for p=1, and for p=0 is the exponential kernel of sqrt(2)*h (the dedicated exponential_kernel uses a different length-scale convention).", "quantifier": "every p and every real h >= 0", "why_tests_cant": "p and h unbounded", "anchors": ["gpmp/kernel/matern.py: maternp_kernel", "gpmp/kernel/matern.py: matern32_kernel", "gpmp/kernel/exponential.py"]}
{"id": "C38", "title": "Covariance matrices are symmetric with constant diagonal; pairwise and full variants disagree exactly by the nugget", "statement": "The covariance of a point set with itself is symmetric with diagonal sigma2+nugget, nugget = 10*sigma2*eps; the pairwise (variance) variant returns sigma2 without the nugget; cross-covariances between distinct arrays carry no nugget, lie in (0, sigma2] and equal sigma2 exactly at coinciding points; the pairwise cross-covariance is the diagonal of the full one; the NumPy and Torch distance formulas give the same matrices in exact arithmetic.", "quantifier": "every point set, dimension and covariance parameter vector", "why_tests_cant": "unbounded", "anchors": ["gpmp/kernel/matern.py: maternp_covariance_ii_or_tt", "gpmp/kernel/matern.py: maternp_covariance_it"]}
{"id": "C39", "title": "Matern covariance matrices are positive definite", "statement": "For every regularity p, every dimension and every finite set of points (repeated points included) the Matern covariance with its nugget is positive definite and the joint covariance of observations and targets is positive semidefinite; hence the likelihood is finite for all data, zero-mean kriging never fails and returns variances in (0, sigma2] that are at most the nugget at observed points, and universal kriging with a full column rank trend never fails and returns positive variances.", "quantifier": "every p, dimension, point sets, covariance parameters and data", "why_tests_cant": "positive definiteness over all finite point sets in all dimensions is an analytic fact", "anchors": ["gpmp/kernel/matern.py: maternp_covariance", "gpmp/kernel/matern.py: maternp_kernel"]}
{"id": "C40", "title": "The kernel depends only on scaled differences", "statement": "Translating both point sets, or multiplying coordinates by s while dividing the inverse length scale by s, leaves the covariance unchanged; sigma2 scales it (nugget included) linearly; permuting the coordinates together with the length scales changes nothing.", "quantifier": "every point set and parameters", "why_tests_cant": "unbounded", "anchors": ["gpmp/kernel/matern.py: maternp_covariance", "gpmp/kernel/utils.py"]}
{"id": "C41", "title": "The log-range prior: minimum, barrier and sign", "statement": "The negative log prior on log-range is minimal exactly at its reference value, strictly monotone on each side of it, +infinity exactly at and below the lower cut-off, tends to infinity at both ends, and is negative somewhere exactly when reference minus cut-off exceeds e although documented as non-negative; the joint log prior has its unique mode at the reference and is -infinity exactly when some coordinate is at or below its cut-off; it raises exactly when alpha <= 0 or some reference is not above its cut-off.", "quantifier": "every real logrho and admissible hyperparameters", "why_tests_cant": "real parameters unbounded", "anchors": ["gpmp/kernel/priors.py: neglog_f_logrho"]}
{"id": "C42", "title": "The power-law prior cut-off has the wrong sign", "statement": "The power-law log prior, documented as penalising large variances, grows without bound in log sigma2 (slope penalty - lambda above the cut-off), whereas length scales outside their interval are penalised as documented; as a consequence, for every Matern model, design and data, the penalised restricted likelihood has no minimum in the variance when n - q <= 197, and is bounded below when n - q >= 198 unless the data lie in the span of the trend.", "quantifier": "for every bound a witness exists", "why_tests_cant": "needs the limit at infinity", "anchors": ["gpmp/kernel/priors.py: log_prior_power_law"]}
{"id": "C43", "title": "Prior lower cut-off from data: smallest positive gap versus range", "statement": "compute_logrho_min_from_xi returns for each coordinate the larger of log(smallest positive pairwise gap) and log(range*factor), or -infinity for a constant coordinate; with the default references the REMAP criterion raises exactly when some coordinate is constant, or c_d <= factor, or c_d*range <= smallest gap (c_d = Gamma(d/2+1)^(1/d)/sqrt(pi)), in particular for every one-dimensional design with two distinct locations or three equally spaced ones; a constant coordinate with admissible user references gives NaN at every parameter.", "quantifier": "every finite design", "why_tests_cant": "unbounded designs", "anchors": ["gpmp/kernel/prior_helpers.py: compute_logrho_min_from_xi", "gpmp/kernel/prior_helpers.py: _minimum_nonzero_gap_distance_1d", "gpmp/kernel/priors.py"]}
{"id": "C44", "title": "Initial/prior covariance parameter resolution precedence", "statement": "resolve_covparam0_* return the explicit value if given, else the shared value, else the model value (update variant), else the initial guess, which is computed at most once; and the two roles never contaminate each other.", "quantifier": "every combination of provided/missing arguments", "why_tests_cant": "decision table across call contexts", "anchors": ["gpmp/kernel/prior_helpers.py: resolve_covparam0_prior_and_init", "gpmp/kernel/prior_helpers.py: resolve_covparam0_roles_for_update"]}
{"id": "C45", "title": "autoselect_parameters returns the best visited point", "statement": "Whatever points the optimiser visits, if its final value is not NaN the returned value is no larger than every non-NaN evaluated one and belongs to the returned parameters, the history records every evaluation in order, linear algebra failures count as +infinity while other exceptions propagate, and the flag tells whether the optimiser's own result was beaten; a NaN final value is kept and flagged as best. The parameters written into the model realise the reported value, which does not exceed the value at an evaluated starting point.", "quantifier": "every optimiser behaviour (sequence of evaluations)", "why_tests_cant": "the optimiser is an arbitrary adversary", "anchors": ["gpmp/kernel/parameter_selection.py: autoselect_parameters"]}
{"id": "C46", "title": "Selection bounds are well-ordered only for moderate initial points", "statement": "Automatically generated bounds contain the initial point exactly when its magnitude is at most 500 and are ordered exactly when it is at most 500 + delta; empirical bounds leave mean parameters free, restrict the variance to [2,10] times the empirical variance, which excludes that variance itself, and each length scale to at least twice the smallest gap.", "quantifier": "every real initial vector", "why_tests_cant": "reals unbounded", "anchors": ["gpmp/kernel/parameter_selection.py: autoselect_parameters", "gpmp/kernel/bounds.py"]}
{"id": "C47", "title": "Batch criteria cycle through the loader", "statement": "A batched criterion evaluates batches in loader order, restarting at the end, for any sequence of evaluations, and averages exactly batches_per_eval of them with size weights (a failing evaluation consumes the batches up to the failing one); when batches_per_eval is a multiple of the number of batches every evaluation equals the full-pass value, otherwise the criterion is not a function of the parameters.", "quantifier": "every evaluation history", "why_tests_cant": "history dependent state", "anchors": ["gpmp/num/torch_backend.py: BatchDifferentiableSelectionCriterion"]}
{"id": "C48", "title": "Resampling preserves the particle count and pairing", "statement": "Resampling (multinomial or residual) produces exactly n particles, each an existing particle with its own cached log density, and resets all weights to 1/n; residual resampling gives particle i at least floor(n*w_i) copies (w normalised, uniform if all weights vanish) and n*w_i on average; particles of weight zero disappear unless all weights vanish; non-finite weights and unknown schemes raise.", "quantifier": "every particle set, weight vector, and random draw", "why_tests_cant": "random draws unbounded", "anchors": ["gpmp/mcmc/smc.py: ParticlesSet.resample", "gpmp/mcmc/smc.py: ParticlesSet.multinomial_resample", "gpmp/mcmc/smc.py: ParticlesSet.residual_resample"]}
{"id": "C49", "title": "Effective sample size bounds", "statement": "ess() lies between 1 and n for non-negative not-all-zero weights, equals n exactly for uniform weights and 1 exactly when a single weight is non-zero, is invariant to rescaling of weights and is 0 for all-zero weights.", "quantifier": "every weight vector", "why_tests_cant": "unbounded reals", "anchors": ["gpmp/mcmc/smc.py: ParticlesSet.ess"]}
{"id": "C50", "title": "Cached log densities stay consistent and reweighting telescopes", "statement": "After a reweighting, any sequence of resample and move steps keeps each particle's cached log-density equal to the current density at that particle; composing successive reweightings yields weights proportional to the ratio of the final to the initial density; a move takes a proposal exactly with the Metropolis rule and never one of density zero.", "quantifier": "every history of operations and every random draw", "why_tests_cant": "unbounded histories", "anchors": ["gpmp/mcmc/smc.py: ParticlesSet.reweight", "gpmp/mcmc/smc.py: ParticlesSet.move"]}
{"id": "C51", "title": "Subset simulation estimate ignores the volume of the initial box", "statement": "The first-stage probability estimate of subset simulation is unbiased for box volume 1 only; for the uniform density on a box of volume V and an event that always holds the whole algorithm returns 1/V instead of 1; later stages estimate the proportion of particles in the next event.", "quantifier": "every box and particle cloud", "why_tests_cant": "statistical tests with unit boxes pass", "anchors": ["gpmp/mcmc/smc.py: run_subset_simulation", "gpmp/mcmc/smc.py: ParticlesSet.reweight"]}
{"id": "C52", "title": "The p0 level search may not terminate, but is correct when it does", "statement": "When compute_next_logpdf_param_p0 returns, the chosen level lies between current and target and its conditional probability is within tolerance of p0 or it is the target; it returns whenever the log densities are continuous in the level and p0 <= 1, and loops for ever when no level is within tolerance or a particle has density zero at every level.", "quantifier": "every density family and particle set", "why_tests_cant": "non-termination is not testable", "anchors": ["gpmp/mcmc/smc.py: SMC.compute_next_logpdf_param_p0", "gpmp/mcmc/smc.py: SMC.compute_p_value"]}
{"id": "C53", "title": "Metropolis-Hastings acceptance satisfies detailed balance", "statement": "For a symmetric proposal and two states of finite log density less than 300 ln 10 apart, the acceptance probability implied by the code's test is min(1, pi(y)/pi(x)) and satisfies pi(x) a(x,y) = pi(y) a(y,x); beyond that distance the 1e-300 floor leaves a defect of at most 1e-300 times the larger density; on a finite state space the target is then invariant; for the non-symmetric option the correction is identically zero, because it always uses the Gaussian density, so custom asymmetric proposals are not corrected.", "quantifier": "every pair of states and positive target", "why_tests_cant": "continuous law", "anchors": ["gpmp/mcmc/mh.py: MetropolisHastings.mhstep"]}
{"id": "C54", "title": "MH trace bookkeeping", "statement": "For every step t >= 1 the stored log-target value is that of the stored state, the state either equals the previous state (recorded as rejected) or the proposal (accepted); column 0 of the log-target trace is never filled; a chain never moves to a state whose target is NaN or -inf, and never leaves a state whose target is NaN (or +inf with a symmetric proposal).", "quantifier": "every sequence of proposals and uniforms, every target including NaN/inf values", "why_tests_cant": "random histories", "anchors": ["gpmp/mcmc/mh.py: MetropolisHastings.mhstep", "gpmp/mcmc/mh.py: MetropolisHastings.run_samples"]}
{"id": "C55", "title": "Truncation box is respected by MH sampling", "statement": "With a sampling box every state of a chain is either its starting point or a point of the box where the criterion is neither NaN nor +inf; a chain started in the box never leaves it.", "quantifier": "every proposal sequence, criterion and box", "why_tests_cant": "random histories", "anchors": ["gpmp/mcmc/param_posterior.py: _make_log_prob_mh", "gpmp/mcmc/mh.py: MetropolisHastings.mhstep"]}
{"id": "C56", "title": "Diminishing adaptation schedule goes negative", "statement": "The adaptation gain is documented to decrease from base to base*final_frac; in fact it equals base*(2*final_frac-1) at the last step and is negative on the last part of the run.", "quantifier": "every base, final fraction and horizon", "why_tests_cant": "documentation vs formula over all steps", "anchors": ["gpmp/mcmc/mh.py: MetropolisHastings._diminishing_adaptation_schedule"]}
{"id": "C57", "title": "Early-stopped burn-in leaves unvisited states that diagnostics read", "statement": "The post-burn-in samples are exactly n_total - burnin consecutive visited states starting at the actual end of burn-in; when burn-in stops early (never before 21 blocks) the whole-chain functions and ks_statistics read rows that were never visited; a single chain with at least 20 blocks of burn-in always raises.", "quantifier": "every scheduler run", "why_tests_cant": "depends on adaptive stopping", "anchors": ["gpmp/mcmc/mh.py: MetropolisHastings.scheduler", "gpmp/mcmc/mh.py: MetropolisHastings.run_burnin", "gpmp/mcmc/mh.py: MetropolisHastings.ks_statistics"]}
{"id": "C58", "title": "Adaptive proposal parameters stay valid", "statement": "Robbins-Monro scale adaptation keeps scales positive, and the Haario covariance stays symmetric positive definite, for every history.", "quantifier": "every history of acceptance rates and samples", "why_tests_cant": "unbounded histories", "anchors": ["gpmp/mcmc/mh.py: MetropolisHastings.run_adaptive_RM", "gpmp/mcmc/mh.py: MetropolisHastings.run_adaptive_Haario"]}
{"id": "C59", "title": "Sliding acceptance rates are window means", "statement": "compute_sliding_rates returns at each position the mean of the last window of acceptances, a number in [0,1]; the first one is always the dummy initial acceptance 1 and the latest step is not counted.", "quantifier": "every acceptance history and window", "why_tests_cant": "unbounded", "anchors": ["gpmp/mcmc/mh.py: MetropolisHastings.compute_sliding_rates"]}
{"id": "C60", "title": "Gelman-Rubin statistic lower bound", "statement": "rhat^2 >= (n-1)/n, with equality iff all chain means coincide; invariance under affine maps of the parameter; constant chains give NaN or +inf and never count as converged; a parameter counts as converged exactly when, in every coordinate, the variance of the chain means is less than 1.21 - (n-1)/n times the mean of the variances of the chains, and this mean is positive.", "quantifier": "every set of chains", "why_tests_cant": "unbounded", "anchors": ["gpmp/mcmc/mh.py: MetropolisHastings.compute_gelman_rubin_rhat"]}
{"id": "C61", "title": "Leapfrog integration is reversible and volume preserving", "statement": "A leapfrog step with step -eps applied after a step eps returns to the starting point exactly; the map is a composition of shears (kick, drift, kick), each with an explicit inverse, and in one dimension its Jacobian determinant is 1; the position moves with the gradient of the kinetic energy at the half-step momentum; for separable quadratic potentials the modified energy im p^2 + lam (1 - e^2 im lam/4) q^2 of every coordinate is conserved.", "quantifier": "every gradient function, dimension, step size and state", "why_tests_cant": "continuous", "anchors": ["gpmp/mcmc/nuts.py: leapfrog"]}
{"id": "C62", "title": "NUTS tree invariants", "statement": "build_tree of depth j makes at most 2^j leapfrog steps, counts at most that many valid states, accumulates an acceptance statistic between 0 and the number of states, and if it reports at least one valid state its proposal is a visited state within the slice; a divergent subtree always stops; the U-turn test is positive exactly when one end, moving on along the trajectory, comes nearer to the other end to first order; nuts_transition makes at most 2^max_depth - 1 leapfrog steps, returns an acceptance statistic in [0,1] and the initial position or that of a slice-valid state of the trajectory (so never a position of non-finite density); a subtree that stops contributes no position; a start of non-finite density is returned unchanged and flagged divergent, and so is one with a non-finite gradient if max_depth >= 1.", "quantifier": "every potential, random stream and depth", "why_tests_cant": "recursive random process", "anchors": ["gpmp/mcmc/nuts.py: build_tree", "gpmp/mcmc/nuts.py: nuts_transition"]}
{"id": "C63", "title": "NUTS warm-up windows tile the adaptation phase", "statement": "The windows are consecutive, non-empty, exactly cover the interval between the initial and the terminal buffer, and double in size except possibly the last; the construction always ends. With the default policy there are none up to 20 iterations and otherwise at least one.", "quantifier": "every warm-up length and buffers and base window >= 1", "why_tests_cant": "unbounded integers", "anchors": ["gpmp/mcmc/nuts.py: make_warmup_windows"]}
{"id": "C64", "title": "Welford accumulation equals batch statistics", "statement": "After any sequence of batch updates, in any grouping, the running mean and variance equal the mean and the unbiased sample variance of all pushed vectors (ones when fewer than two were pushed).", "quantifier": "every sequence", "why_tests_cant": "unbounded sequences", "anchors": ["gpmp/mcmc/nuts.py: RunningDiagVar"]}
{"id": "C65", "title": "Step-size and mass safeguards", "statement": "Every step size used is within [eps_min, eps_max] with 0 < eps_min < eps_max whatever the options and the dual averaging produce (NaN and infinities included); mass entries are at least min(1, jitter); the dual averaging statistic is the damped mean of target - accept and stays within target-1 and target, and the averaged log step size between the extremes produced; the initial step size search terminates when scale_base > 1 within a factor scale_base of its bounds; warm-up raises no OverflowError as long as log(mu_factor*eps_max) + sqrt(n)(1-target)/gamma < 1024 log 2, and does raise for long enough warm-ups.", "quantifier": "every history", "why_tests_cant": "unbounded histories", "anchors": ["gpmp/mcmc/nuts.py: nuts_sample", "gpmp/mcmc/nuts.py: DualAveragingState", "gpmp/mcmc/nuts.py: find_reasonable_step_size"]}
{"id": "C66", "title": "Threshold-weighted CRPS is additive over adjacent intervals", "statement": "tcrps over [a,b] equals the integral over [a,b] of the squared difference between the predictive distribution function and the step at the observation (improper integral for infinite end points); tcrps over [a,b] plus tcrps over [b,c] equals tcrps over [a,c], including infinite end points, and the unrestricted CRPS equals the sum over a partition and bounds every truncated score.  Only finiteness of an end point is tested, so a lower end of +inf is scored as -inf.", "quantifier": "every mean, standard deviation, observation and thresholds", "why_tests_cant": "reals unbounded", "anchors": ["gpmp/misc/scoringrules.py: tcrps_gaussian", "gpmp/misc/scoringrules.py: crps_gaussian"]}
{"id": "C67", "title": "CRPS properties", "statement": "The Gaussian CRPS is symmetric, translation invariant, positively homogeneous, strictly minimal at z = mu with value sigma(sqrt2-1)/sqrt(pi) > 0, strictly increasing in the absolute error, and between |z-mu| - sigma/sqrt(pi) and |z-mu| + sigma(sqrt2-1)/sqrt(pi).", "quantifier": "every mu, sigma > 0, z", "why_tests_cant": "reals unbounded", "anchors": ["gpmp/misc/scoringrules.py: crps_gaussian"]}
{"id": "C68", "title": "Regular grids are Cartesian products", "statement": "regulargrid returns each combination of levels exactly once in lexicographic order, product-many rows, all inside the box, pairwise distinct for a non-degenerate box; it raises when counts or bounds are too short or spare counts change the number of rows.", "quantifier": "every dimension, level counts and box", "why_tests_cant": "unbounded", "anchors": ["gpmp/misc/designs.py: regulargrid"]}
{"id": "C69", "title": "filldist_approx computes a separation, not a fill distance", "statement": "The approximate fill distance should be the largest distance from a sample point to the nearest design point; the implementation returns the smallest of all distances, so it can be arbitrarily smaller.", "quantifier": "every ratio has a witness", "why_tests_cant": "no reference value in tests", "anchors": ["gpmp/misc/designs.py: filldist_approx"]}
{"id": "C70", "title": "Performance indices are consistent", "statement": "For non-constant targets Q2 = 1 - (rmse_over_std)^2, Q2 <= 1 with equality iff predictions are exact, and the dimensionless indices are invariant to affine changes of units; the test-set mean scores 0 and the leave-one-out mean 1 - (n/(n-1))^2; constant targets give -inf, or NaN when the errors are zero too.", "quantifier": "every data set", "why_tests_cant": "unbounded", "anchors": ["gpmp/modeldiagnosis/performance.py: compute_performance"]}
{"id": "C71", "title": "One-dimensional posterior statistics", "statement": "fast_univariate_stats returns the trapezoidal mean, variance, quantiles and mode of exp(-criterion): the mean is within the bounds, the variance non-negative, the quantiles monotone in the level and within the bounds, all invariant to a constant shift of the criterion; it raises exactly when there are fewer than two points, an empty interval, a criterion value that is NaN or -inf, or no finite value. The quadrature implementation agrees with the normalised density while the log density stays in [-745, 709], and raises when it is everywhere outside, so it is not shift invariant.", "quantifier": "every grid, criterion values and level", "why_tests_cant": "unbounded", "anchors": ["gpmp/modeldiagnosis/param_stats.py: fast_univariate_stats", "gpmp/modeldiagnosis/un1ddist.py: Unnormalized1DDistribution"]}
{"id": "C72", "title": "SVGD step structure", "statement": "Annealed temperatures run from the initial to the final temperature monotonically; the kernel is symmetric with values in (0,1] and the default bandwidth is the median of the positive squared distances over log(n+1); a live particle moves along the preconditioned Stein direction; the preconditioner is 1 by default and otherwise the given positive diagonal floored at the jitter; the repulsion forces sum to zero, so a flat target keeps the centre of the cloud; a particle with a value that is not finite never moves; shape is kept and with a non-empty box every particle is in the box after every step, but with zero steps the initial particles are returned unprojected.", "quantifier": "every particle cloud and target", "why_tests_cant": "unbounded", "anchors": ["gpmp/mcmc/svgd.py: svgd_step", "gpmp/mcmc/svgd.py: rbf_kernel_matrix", "gpmp/mcmc/svgd.py: _annealed_temperature"]}
{"id": "C73", "title": "DataFrame.concat shares its label list with its operand", "statement": "Vertical concatenation of two DataFrames with equal column labels stacks rows and row labels and leaves the operands usable, and append_col extends data and labels together; but appending a column to the result of a concatenation also adds the label to the first operand, whose labels no longer match its columns.", "quantifier": "every pair of tables with equal column labels and every appended column", "why_tests_cant": "aliasing bugs depend on call sequences on shared mutable lists, and tables are unbounded", "anchors": ["gpmp/misc/dataframe.py: DataFrame.concat", "gpmp/misc/dataframe.py: DataFrame.append_col"]}
{"id": "C74", "title": "Initial covariance parameter guesses", "statement": "anisotropic_parameters_initial_guess_zero_mean returns, for its length scales, the unique variance maximising the likelihood; the constant-mean variant returns the generalised least squares mean but a variance computed from the uncentred data; the linear-mean variant returns (n-q)/n times the variance maximising the restricted likelihood.", "quantifier": "every design with no constant coordinate, non-degenerate data, trend basis of full column rank", "why_tests_cant": "optimality over all variances and all data", "anchors": ["gpmp/kernel/init.py: anisotropic_parameters_initial_guess_zero_mean", "gpmp/kernel/init.py: anisotropic_parameters_initial_guess_constant_mean", "gpmp/kernel/init.py: anisotropic_parameters_initial_guess"]}
{"id": "C75", "title": "The Gaussian prior on log sigma2 has the requested coverage", "statement": "For gamma > 1 and coverage in (0,1) the normal law on log sigma2 used by the prior puts exactly the requested mass on [sigma2_0/gamma, sigma2_0*gamma]; the log prior is the logarithm of its density up to a constant, with unique mode at sigma2_0; every other gamma or coverage raises.", "quantifier": "every gamma, coverage and reference variance", "why_tests_cant": "a statement about an integral for all hyperparameters", "anchors": ["gpmp/kernel/priors.py: log_prior_gaussian_logsigma2", "gpmp/kernel/priors.py: _logsigma2_prior_std"]}
{"id": "C76", "title": "Value and gradient belong to the same point and batches", "statement": "On Torch the array criterion wrapper returns the gradient only at the point just evaluated and raises elsewhere, after a linear algebra failure, and at the second request for the same evaluation; the batch wrapper averages value and gradient over the same batches with size weights, but ignores the point it is asked for and after a failed evaluation returns the gradient of an earlier point.", "quantifier": "every sequence of evaluations, batch sizes and criterion", "why_tests_cant": "depends on the order of calls made by the optimiser", "anchors": ["gpmp/num/torch_backend.py: DifferentiableSelectionCriterion", "gpmp/num/torch_backend.py: BatchDifferentiableSelectionCriterion"]}
{"id": "C77", "title": "An SMC restart walks monotonically from the initial to the target level", "statement": "A restart that ends has visited levels starting at the initial and ending at the target one, each strictly nearer to the target with the p0 search and never farther with the ESS search, and leaves n particles with the target log density cached; but when initial and target levels are equal it makes no step and returns the uniform initial particles as if they followed the target.", "quantifier": "every density family, level pair, random draw and root finder", "why_tests_cant": "quantifies over all histories of an adaptive loop", "anchors": ["gpmp/mcmc/smc.py: SMC.restart", "gpmp/mcmc/smc.py: SMC.step_with_possible_restart", "gpmp/mcmc/smc.py: run_smc_sampling"]}
{"id": "C78", "title": "Tuning of the SMC proposal scale", "statement": "The tuning phase multiplies or divides the scale by the factor once per move whose acceptance rate is out of range and ends at the first rate in range or after the maximum number of moves; with the default settings particles that never accept raise ParticlesSetError, and the error cannot occur when the range admits the maximum number of changes.", "quantifier": "every sequence of acceptance rates and every setting", "why_tests_cant": "every sequence of rates", "anchors": ["gpmp/mcmc/smc.py: SMC.move_with_controlled_acceptation_rate", "gpmp/mcmc/smc.py: ParticlesSet.perturb"]}
{"id": "C79", "title": "The Kolmogorov-Smirnov convergence check counts self-comparisons", "statement": "The fraction of significant comparisons includes the diagonal, whose p-values are left at 0, so it is at least 1 over the number of blocks; with one or two chains check_convergence_ks can never succeed with the default threshold 0.5.", "quantifier": "every p-value table, number of chains, blocks and coordinates", "why_tests_cant": "quantifies over all p-value tables", "anchors": ["gpmp/mcmc/mh.py: MetropolisHastings.ks_statistics", "gpmp/mcmc/mh.py: MetropolisHastings.check_convergence_ks"]}
{"id": "C80", "title": "Stored log-target values versus returned samples", "statement": "get_log_target_values returns more columns than there are samples; column j holds the log target of the state in row burnin + j, except that row 0 and every row after the last visited one hold NaN.", "quantifier": "every scheduler run, with and without burn-in discarded", "why_tests_cant": "depends on adaptive stopping", "anchors": ["gpmp/mcmc/param_posterior.py: get_log_target_values", "gpmp/mcmc/mh.py: MetropolisHastings.scheduler"]}
{"id": "C81", "title": "The NUTS transition is reversible with respect to the uniform law on the slice", "statement": "Given the slice level and the trajectory, the law of the position returned by nuts_transition is a kernel on the slice states of the trajectory that is symmetric, so it leaves the uniform law on those states invariant, provided no state passes the slice test log_u < delta_max - H while exceeding the energy of a slice state by more than delta_max. Without that proviso symmetry fails, because the divergence test is relative to the starting energy (the two tests are not equivalent, contrary to the comment).", "quantifier": "every potential, mass, step size, maximal depth, slice level and trajectory", "why_tests_cant": "exact law of a recursive random process", "anchors": ["gpmp/mcmc/nuts.py: build_tree", "gpmp/mcmc/nuts.py: nuts_transition", "gpmp/mcmc/nuts.py: is_uturn"]}
{"id": "C82", "title": "NUTS mass adaptation uses the variance, not the inverse variance", "statement": "At the end of a window the mass of a coordinate becomes the sample variance of that coordinate over the window, clipped at the jitter, and keeps it until the next window end; consequently for a Gaussian coordinate of standard deviation s at stationarity leapfrog is stable exactly for steps below 2 s^2, instead of 2 for the usual choice mass = 1/variance.", "quantifier": "every history of positions and every Gaussian target", "why_tests_cant": "asymptotic behaviour of an adaptive scheme", "anchors": ["gpmp/mcmc/nuts.py: nuts_sample", "gpmp/mcmc/nuts.py: RunningDiagVar", "gpmp/mcmc/nuts.py: leapfrog"]}
{"id": "C83", "title": "Expected improvements are tail integrals", "statement": "ei1_up is the integral of one minus the predictive distribution function above the threshold and ei2_up that of one minus its square; ei1_up is positive, above mu - z, decreasing in the threshold, increasing in the mean and in the standard deviation, and ei1_up <= ei2_up <= 2 ei1_up.", "quantifier": "every mean, standard deviation > 0 and threshold", "why_tests_cant": "closed forms against improper integrals over the reals", "anchors": ["gpmp/misc/scoringrules.py: ei1_up", "gpmp/misc/scoringrules.py: ei2_up"]}
{"id": "C84", "title": "Random designs keep the best candidate and stay in the box", "statement": "scale maps a unit-cube sample into the box; maximinlhs and maximinldlhs return the first candidate with the largest minimal distance and ldrandunif the first with the smallest discrepancy; Latin hypercube candidates stay Latin in the box; with a single point, no iterations or coincident points in every candidate the functions raise; distances are compared before scaling, so in a box with unequal sides the returned design need not be the best candidate.", "quantifier": "every candidate sequence and box", "why_tests_cant": "random candidates; unbounded", "anchors": ["gpmp/misc/designs.py: maximinlhs", "gpmp/misc/designs.py: maximinldlhs", "gpmp/misc/designs.py: ldrandunif", "gpmp/misc/designs.py: scale"]}
{"id": "C85", "title": "Data section of the diagnosis report", "statement": "describe_array reports attained extremes, their difference, the mean and the population standard deviation; the column delta_over_sigma is range / rho_j for input j, but for the observations it is range / sigma^2, equal to range / sigma only if sigma = 1 or the range is zero, so it changes with the unit of the observations.", "quantifier": "every data set and parameter vector", "why_tests_cant": "unbounded; no test looks at the printed ratio", "anchors": ["gpmp/modeldiagnosis/report.py: modeldiagnosis_disp", "gpmp/modeldiagnosis/utils.py: describe_array"]}
{"id": "C86", "title": "Probability integral transforms", "statement": "For vector targets compute_performance returns one transform per point, in (0,1), increasing in the target and below one half exactly when the target is below the predicted mean; it is NaN where the predictive variance is not positive; column targets are broadcast to every target against every prediction.", "quantifier": "every data set and prediction", "why_tests_cant": "unbounded", "anchors": ["gpmp/modeldiagnosis/performance.py: compute_performance"]}
{"id": "C87", "title": "One-parameter profiles of the selection criterion", "statement": "Each row of selection_criterion_statistics_fast describes the criterion as a function of one parameter with the others held fixed, over the requested interval; with no box and an even number of grid points (the default) the optimum is not on the grid and the reported mode is at least delta/(n-1) away from it.", "quantifier": "every criterion, parameter vector and index list", "why_tests_cant": "unbounded", "anchors": ["gpmp/modeldiagnosis/param_stats.py: selection_criterion_statistics_fast"]}
{"id": "C88", "title": "SVGD on the faces of the box with the NumPy backend", "statement": "With the NumPy backend the score of a particle across a face closer than two difference steps is zero, whatever the target, because the five-point stencil meets the -inf outside the box; deeper inside it is the five-point difference of the log density over the temperature. So a lone particle on a face stays on it during the whole run, even if the density increases inwards.", "quantifier": "every target, box and particle", "why_tests_cant": "unbounded", "anchors": ["gpmp/mcmc/svgd.py: svgd_step", "gpmp/num/numpy_backend.py: value_and_grad"]}
{"id": "C89", "title": "Starting points of the posterior samplers", "statement": "Whatever accepted form of param_initial_states (number, vector, one-row matrix, one row per chain, or the parameters stored in info), the MH and NUTS entry points start one chain per requested chain, all of the inferred dimension, at exactly those points; with random_init every starting coordinate is inside init_box. The documented layout (dim, n_chains) is never honoured: it is refused, or read by rows if square, or taken for one point. The criterion sampled is the one given or the one of info (for MH the version without gradients first), never both; a bound given as one number, or as a vector of one number, holds for every coordinate.", "quantifier": "all inputs, numbers of chains and boxes", "why_tests_cant": "shape combinations are unbounded", "anchors": ["gpmp/mcmc/param_posterior.py: _prepare_sampling_inputs, _normalize_initial_states, _infer_param_dim"]}
{"id": "C90", "title": "Samples returned by the MH posterior sampler", "statement": "sample_from_selection_criterion_mh returns n_chains arrays of n_steps_total - burnin states of the inferred dimension; with a sampling box every returned state that is not the chain's start is in the box. A criterion that raises at every point is not reported: all returned states equal the start. With reporting on, fewer than two chains or two kept rows raise.", "quantifier": "all criteria, boxes, proposals and uniform draws", "why_tests_cant": "random histories are unbounded", "anchors": ["gpmp/mcmc/param_posterior.py: sample_from_selection_criterion_mh", "gpmp/mcmc/mh.py: scheduler"]}
{"id": "C91", "title": "Samples returned by the SMC posterior sampler", "statement": "The tempered target of sample_from_selection_criterion_smc is -criterion/temperature in the box and -inf outside, evaluated row by row, with raised evaluations mapped to -inf; in a successful run whose first particles include one with positive density every returned particle is in the box. If no drawn particle is in the box the run still succeeds and returns particles outside; if initial and final temperature coincide and the ESS test fails the uniform draws come back unweighted.", "quantifier": "all criteria, boxes, temperatures and draws", "why_tests_cant": "random histories are unbounded", "anchors": ["gpmp/mcmc/param_posterior.py: sample_from_selection_criterion_smc, _make_log_target"]}
{"id": "C92", "title": "Particles returned by the SVGD posterior sampler", "statement": "sample_from_selection_criterion_svgd returns as many particles as the explicit initial cloud (which takes precedence over n_particles and random_init) or n_particles otherwise, all of the inferred dimension; when the options are built from its arguments every particle of every step is in the sampling box, except a random start with zero steps. A zero jitter with a replicated start keeps all particles identical forever. An explicit options object replaces the sampling box, so particles may leave it.", "quantifier": "all inputs, boxes, targets and numbers of steps", "why_tests_cant": "unbounded", "anchors": ["gpmp/mcmc/param_posterior.py: sample_from_selection_criterion_svgd", "gpmp/mcmc/svgd.py: svgd_sample"]}
{"id": "C93", "title": "Minimisers of the Branin test function", "statement": "braninhoo is bounded below by 10/(8 pi), and on the usual domain [-5,10]x[0,15] the value is reached exactly at (-pi, 12.275), (pi, 2.275), (3 pi, 2.475); over the whole plane exactly on one point for each odd multiple of pi.", "quantifier": "all real points", "why_tests_cant": "a continuum of points", "anchors": ["gpmp/misc/testfunctions.py: braninhoo"]}
{"id": "C94", "title": "Test functions that differ from their documentation", "statement": "detpep8d adds only the last term i=8 of the published sum, so it is below the published function at every non-negative point and agrees with it exactly when x3..x7 vanish; wave differs from its documented formula by 3(x2-x1); hartmann4 exceeds -3.25 at the documented minimiser, where the documentation gives -3.86278; hartmann6 reaches its documented minimum -3.32237 up to 0.0002 at the minimiser of the literature; hartmann6 stays in [-8.4,0) and hartmann4 in [(1.1-8.4)/0.839, 1.1/0.839); twobumps shifted by 2 pi/5 drops by exactly 0.28 pi.", "quantifier": "all real points", "why_tests_cant": "a continuum of points", "anchors": ["gpmp/misc/testfunctions.py: detpep8d, wave, hartmann4, hartmann6, twobumps"]}
{"id": "C95", "title": "Mean, main effects and variance of the Ishigami function", "statement": "Under independent uniform inputs on [-pi,pi] the mean of ishigami is a/2, its main effects are (1+b pi^4/5) sin x1, a sin(x2)^2 - a/2 and 0, and its variance is a^2/8 + b pi^4/5 + b^2 pi^8/18 + 1/2, with a=5 and b=0.1.", "quantifier": "exact integrals", "why_tests_cant": "integrals are not computable by sampling", "anchors": ["gpmp/misc/testfunctions.py: ishigami"]}
{"id": "C96", "title": "Monotonicity and extremes of the borehole function", "statement": "For positive inputs with rw < r the flow is 2 pi (Hu-Hl) over a positive resistance ln(r/rw)(1/Tu+1/Tl)+2L/(rw^2 Kw); it is nondecreasing in rw, Tu, Hu, Tl, Kw and nonincreasing in r, Hl, L; over the documented ranges its minimum and maximum are at two opposite corners.", "quantifier": "all positive inputs with rw < r", "why_tests_cant": "a continuum of points", "anchors": ["gpmp/misc/testfunctions.py: borehole"]}
{"id": "C97", "title": "Variance estimates under the prior-penalised criteria", "statement": "For a Matern model with n-q=r contrasts and data outside the span of the trend, at any fixed length scales: the restricted likelihood has one minimum in log sigma2; the Jeffreys-penalised criterion has one minimum, with variance multiplied by r/(r+2 lambda) (none if r+2 lambda <= 0, the criterion then decreases); the criterion with the Gaussian prior on log sigma2 has one minimum, between the restricted likelihood one and the prior centre; adding the log-range prior inside its support leaves that minimum in place, and at or below a cut-off the combined criterion is +inf. Its value is the restricted likelihood plus (log sigma2 - centre)^2/(2 std^2) plus the barrier-linear terms; with the log-range prior alone the value is the restricted likelihood plus the barrier-linear terms, and +inf at or below a cut-off. When the restricted likelihood fails (+inf) all these criteria are +inf.", "quantifier": "all data sets, designs, trends, length scales, hyperparameters", "why_tests_cant": "minimisation over a continuum for all data", "anchors": ["gpmp/kernel/priors.py: neg_log_restricted_posterior_with_jeffreys_prior, neg_log_restricted_posterior_logsigma2_prior, neg_log_restricted_posterior_logsigma2_and_logrho_prior"]}
{"id": "C98", "title": "Covariance of the SMC perturbation noise", "statement": "The covariance built from nearest neighbours is symmetric positive semidefinite; along any direction its variance is the mean, over the sampled particles, of the sample variance of their neighbourhood, and it is zero exactly when every neighbourhood is constant along the direction. It is NaN exactly when no particle is sampled or some neighbourhood has fewer than two members. If every neighbourhood is the whole population it is the ordinary sample covariance. It follows affine changes of the particles. A perturbation is refused exactly when its scale is outside the bounds; otherwise the noise is drawn with the covariance times the scale. If all particles agree along a direction, they keep that value after the perturbation and the acceptance step. When the draw of the noise fails, the recovery by jitter raises NameError (np is not defined in the module); hence a single particle cannot be perturbed.", "quantifier": "all particle sets, dimensions, neighbourhoods, sampled subsets, scales", "why_tests_cant": "all directions, all populations", "anchors": ["gpmp/mcmc/knn_cov.py: estimate_cov_matrix, estimate_cov_matrix_knn", "gpmp/mcmc/smc.py: ParticlesSet.perturb, ParticlesSet.move"]}
{"id": "C99", "title": "Validation of array inputs, of the mean and of the data source", "statement": "ensure_shapes_and_type accepts exactly xi (n,d), zi (n,) or (n,1), xt (m,d), for the arguments given, and returns them with zi of shape (n,) and the same entries; applied to its own result it changes nothing. The checks precede the conversion, so a list for xi raises AttributeError even with convert=True. validate_model_mean accepts exactly a zero mean without function or another type with a callable, and never looks at meanparam, so a parameterized mean without parameters is accepted. Arrays are used exactly when xi and zi are given without loader; a loader with at most one of them is used and the lone array ignored; everything else raises ValueError. prepare_data makes zi one column and does not compare its length with xi.", "quantifier": "all shapes, entries, combinations of arguments", "why_tests_cant": "all shapes and combinations", "anchors": ["gpmp/core/utils.py: ensure_shapes_and_type, validate_model_mean", "gpmp/kernel/utils.py: check_xi_zi_or_loader, prepare_data"]}
{"id": "C100", "title": "Initial guess computed from a dataloader", "statement": "With a dataloader the length scales come from the ranges of the columns of the whole dataset, including rows a pass drops. With zero mean the variance is the only minimiser of the sum over the batches of the negative log-likelihoods, so correlations between batches are ignored: with batches of one observation it is the mean square of the observations up to the nugget. One batch holding all rows gives the result for arrays; in general the variance is at most the number of batches times that of the arrays. With a linear mean the variance is (N - B q)/N times the only minimiser of the sum of the restricted criteria (N rows, B batches, q trend functions). With a constant mean, the mean is the average, weighted by the batch sizes, of the least squares means of the batches, and the variance is the zero-mean one; observations of shape (n, 1) raise. A pass without batch raises.", "quantifier": "all datasets, shards, batch decompositions, smoothness, dimensions", "why_tests_cant": "all partitions of the data into batches", "anchors": ["gpmp/kernel/init.py: _dataloader_x_delta, anisotropic_parameters_initial_guess_zero_mean, anisotropic_parameters_initial_guess_constant_mean, anisotropic_parameters_initial_guess", "gpmp/dataloader.py: DataLoader.reduce_mean"]}
{"id": "C101", "title": "A NUTS run is a chain of transitions under the recorded adaptation", "statement": "nuts_sample returns num_samples rows after num_warmup warm-up rows, one entry per chain. Each entry is the result of one transition of that chain, started where its previous entry ended (the first at q_init), with the step size and mass of its iteration; log_prob_trace is the log-density at the recorded position. The warm-up step sizes and masses are those of the adaptation applied to the recorded outcomes, and the sampling phase keeps the final ones. All step sizes lie between the two bounds and all masses above min(1, jitter). A chain started at a finite log-density with finite gradient has finite recorded log-densities, at most 2^depth - 1 leapfrog steps and acceptance in [0,1]; a chain started anywhere else repeats its starting point forever, with divergence flags as the only sign; with max_depth = 0 every chain is frozen and finite starts are not even flagged. The run does not raise while the warm-up is short enough for the step size not to overflow; with no chain it raises.", "quantifier": "all targets, gradients, draws, numbers of chains, warm-up lengths and options", "why_tests_cant": "all random histories and targets", "anchors": ["gpmp/mcmc/nuts.py: nuts_sample, potential_and_grad, nuts_transition"]}
{"id": "C102", "title": "Posterior samples from NUTS: shape, support, faces of the box, options", "statement": "sample_from_selection_criterion_nuts returns samples of shape (n_chains, num_samples, dim), the sampling phase of each chain in order. A chain whose starting point lies in the sampling box with finite criterion and gradient stays at such points; any other chain returns num_samples copies of its starting point without raising. With the NumPy backend the gradient is a five-point difference with step h = 1e-5 (exact for polynomials of degree at most four in each coordinate), so no sample other than the starting point comes within 2h of a face of the sampling box, and a chain started within 2h of a face never moves. With an options object, an argument equal to its default is ignored even when given explicitly; any other argument overrides the object; without object the arguments are used.", "quantifier": "all criteria (including raising and non-finite ones), boxes, starting points and options", "why_tests_cant": "all criteria, boxes and random histories", "anchors": ["gpmp/mcmc/param_posterior.py: sample_from_selection_criterion_nuts, _make_log_prob_nuts", "gpmp/mcmc/nuts.py: nuts_sample, _resolve_nuts_options", "gpmp/num/numpy_backend.py: value_and_grad"]}
{"id": "C103", "title": "Repeated REMAP updates forget the prior", "statement": "Called without covparam0 and covparam0_prior, update_parameters_with_remap and update_parameters_with_remap_gaussian_logsigma2 centre the prior on the current parameters of the model. Any result whose objective is not larger than at the starting point then has a smaller negative restricted log-likelihood (strictly, unless the parameters, respectively the variance, did not change): a sequence of updates is a descent of the restricted likelihood, whatever the prior. A parameter left in place by an update has the restricted likelihood estimate of the variance at its length scales and is a first-order stationary point of the restricted likelihood: parameters at distance h improve it by O(h^2) at most. At fixed length scales, repeated exact updates of the variance converge to the restricted likelihood estimate from any starting value. With covparam0 or covparam0_prior given the objective does not depend on the parameters of the model. The search starts at covparam0_init if given, else covparam0, else the current parameters, else the initial guess, and covparam0_init never moves the prior given by covparam0_prior.", "quantifier": "all Matern models, designs, data not in the span of the trend, gamma > 1, coverage in (0,1), alpha > 0, parameters inside the support, all results of the optimiser not worse than its start", "why_tests_cant": "infinite sequences of updates and limits; all parameters", "anchors": ["gpmp/kernel/parameter_selection.py: update_parameters_with_remap, update_parameters_with_remap_gaussian_logsigma2, update_parameters_with_remap_gaussian_logsigma2_and_logrho_prior", "gpmp/kernel/prior_helpers.py: resolve_covparam0_roles_for_update, resolve_logsigma2_logrho_prior_args"]}
{"id": "C104", "title": "Selection with a dataloader: weights of the batches and of the prior", "statement": "With a dataloader the selection criterion is the size-weighted mean of the criteria of the batches. At fixed length scales the restricted likelihood objective has one minimum over the variance, the mean of the estimates of the batches with weights n(n-q). With the Gaussian prior on log sigma2 the prior term appears once beside a mean of log-likelihoods: with equal batches the minimum is that of the sum of the restricted likelihoods with the prior counted once per batch, between the estimate without prior and the prior centre. Repeating the batches leaves every criterion unchanged, so more data of the same kind never reduce the influence of the prior, contrary to the array version. A linear algebra failure on one batch makes the criterion +inf with NumPy and raises with Torch; any other exception of a batch is raised.", "quantifier": "all Matern models, loaders with non-empty batches on which the trend has full rank and the data are not a trend, numbers of repetitions, gamma > 1, coverage in (0,1)", "why_tests_cant": "all batch structures and data; minimisers over an unbounded set", "anchors": ["gpmp/kernel/parameter_selection.py: make_selection_criterion_with_gradient, select_parameters_with_reml, select_parameters_with_remap_gaussian_logsigma2", "gpmp/num/numpy_backend.py: BatchDifferentiableSelectionCriterion", "gpmp/num/torch_backend.py: BatchDifferentiableSelectionCriterion"]}
{"id": "C105", "title": "Quantiles, median and std of a sharded dataset, sampled quantiles, robust scaling", "statement": "x_quantile(q) and z_quantile(q) raise for q outside [0,1] and otherwise return, column by column, the linear interpolation of the order statistics of all the rows at position q (n - 1): x_min at q = 0, x_max at q = 1, nondecreasing in q, more than q (n - 1) rows at or below and more than (1 - q)(n - 1) at or above, the median having at least half of the rows on each side. The result depends neither on the order of the rows nor on the sharding, follows changes of units, and a change of sign exchanges q and 1 - q. std is the square root of the unbiased variance (NaN for one row). The sampled quantile is the exact quantile of rows of the dataset, min(n_i, sample_size // number of shards) from shard i: exact when no shard exceeds that number, and an error when sample_size is smaller than the number of shards. RobustScaler.fit gives columns of median 0 and unit range between the two levels (or leaves the range when it is below 1e-8).", "quantifier": "all lists of shards with at least one row, all levels, all draws without replacement, all sample sizes", "why_tests_cant": "all data, partitions and draws", "anchors": ["gpmp/dataloader.py: Dataset._reduce_quantile, _reduce_median, _reduce_std, _reduce_quantile_approx, RobustScaler.fit", "gpmp/num/torch_backend.py: percentile"]}
{"id": "C106", "title": "Assignment to a DataFrame changes exactly the cells that the key designates", "statement": "df[key] = value, for a key made of two slices, a slice and a name, two names or one name (a row if a row has that name, else a column), changes exactly the cells at the designated rows and columns, each to its entry of the value after repetition of axes of length one, and keeps the labels, the shape and all other cells; reading the same block back gives the entries of the value. A value that does not fit, an unknown name, a slice of step 0, one-dimensional data and a label whose position is beyond the data raise and leave the frame unchanged.", "quantifier": "all rectangular frames, keys, slices (any start, stop, step, also negative) and scalar, one- and two-dimensional values", "why_tests_cant": "all slices and shapes", "anchors": ["gpmp/misc/dataframe.py: DataFrame.__setitem__, __getitem__"]}
{"id": "C107", "title": "Which arrays share memory with a Param", "statement": "set_by_name, set_by_path, set_from_unnormalized and p.values[i] = x write in place: they change the entries they name, no cell of memory outside the Param, and every array that shares those cells. Arrays obtained as p.values or with return_view=True equal the current entries after any sequence of such updates, and writing to them updates the Param. get_by_path without view, denormalized_values, p[index] and concat give new arrays that no later update of the Param changes and through which it cannot be changed; they hold integers when the Param does, and the result of concat holds integers exactly when all its parts do. Assigning denormalized_values gives the Param a new array: every array that shared its memory keeps the old values for ever. An array given to the constructor is shared with the Param and with every other Param made from it; a list is copied. If the values are integers, a number set is read back truncated, so unchanged exactly when it is an integer. Assigning values of another length is accepted: names beyond the array then raise, and denormalized_values cannot be assigned to itself if the array is longer.", "quantifier": "all heaps, Params, views, sequences of updates", "why_tests_cant": "aliasing needs all sequences of updates", "anchors": ["gpmp/parameter/param.py: Param.__init__, values, denormalized_values, get_by_name, get_by_path, set_by_name, set_by_path, set_from_unnormalized, __getitem__, concat", "gpmp/num/numpy_backend.py: asarray", "gpmp/num/torch_backend.py: asarray"]}
{"id": "C108", "title": "Parameters and bounds of the diagnosis report", "statement": "modeldiagnosis_init writes the bounds of the optimiser into the Param of the report exactly when info.bounds has two columns and at least as many rows as mean and covariance parameters and the Param has as many covariance entries as model.covparam: then the k-th covariance entry receives row (number of mean parameters + k), or None when both sides are infinite, and everything else is kept; otherwise the Param is used unchanged, silently. The dict of parameters has one key per distinct name with the denormalised value of the last entry of that name, so it lists all entries exactly when the names are distinct. Without a Param, the anisotropic report lists sigma2 = exp(covparam[0]), the square of the sigma of sigma_rho_from_covparam, and the same ranges rho_i = exp(-covparam[i+1]); the noisy report has the noise variance in between; other model types and vectors too short are refused.", "quantifier": "all Params, paths, bounds arrays, mean and covariance parameter vectors", "why_tests_cant": "all lengths and label sets", "anchors": ["gpmp/modeldiagnosis/report.py: modeldiagnosis_init", "gpmp/parameter/param.py: Param.to_simple_dict, param_from_covparam_anisotropic, param_from_covparam_anisotropic_noisy", "gpmp/modeldiagnosis/utils.py: sigma_rho_from_covparam"]}
{"id": "C109", "title": "Draws with jitter, covariances of pooled chains and the verdict on the acceptance rates", "statement": "sample_multivariate_normal_with_jitter returns the first draw that succeeds among the covariance and the covariance shifted by initial_jitter, 10 initial_jitter, 100 initial_jitter, ... (at most max_attempts shifts). When the draw succeeds for the positive definite matrices and only for them, a positive definite covariance is never shifted, a positive semidefinite one by at most initial_jitter, the call fails exactly when the largest shift is not enough, and the covariance built by the Haario adaptation is always used as it is. Grouping chains by n_pool raises exactly when n_pool is 0 or does not divide the number of chains; no sample is lost or counted twice; n_pool = 1 gives the covariance of each chain, n_pool = n_chains the pooled covariance. The pooled scatter is the sum of the scatters of the chains plus the scatter of the chain means, hence at least the first in every direction, with equality exactly when all chain means coincide. recompute_all_chains_full_covariance gives each chain scaling times the covariance of its own samples after burn-in (2.38^2/dim by default) plus epsilon times the identity, whatever the other chains are; with at least two such samples, scaling >= 0 and epsilon > 0 this is positive definite, with variance at least epsilon in every unit direction. check_acceptance_rates says ok exactly when every rate of every chain in the window lies between the thresholds, and raises exactly when the window has at most one iteration.", "quantifier": "all covariances, jitters, chains of any number and length, windows and thresholds", "why_tests_cant": "all dimensions, numbers of chains and lengths", "anchors": ["gpmp/mcmc/mh.py: sample_multivariate_normal_with_jitter, MetropolisHastings._get_pooled_samples, MetropolisHastings.compute_empirical_covariance_whole_chain, MetropolisHastings.check_acceptance_rates"]}
{"id": "C110", "title": "Joint maximum likelihood of the mean and of the variance", "statement": "For a Matern model whose mean is linear in its parameters (a constant mean in particular) and any fixed correlation lengths, negative_log_likelihood has exactly one minimum in (meanparam, log sigma2): the generalised least squares coefficients and the mean square of the whitened residual, divided by n. The restricted likelihood at the same lengths has its only minimum at that log variance plus ln(n / (n - q)). Replacing the data by a z + P c moves the parameters to a beta + c and log sigma2 + ln a^2 and the criterion by a constant. The initial guess for a linear mean is the variance part of that joint minimum; the initial guess for a constant mean has the right mean and a variance that is too large by m^2 1'K^{-1}1/n, so it is the joint minimum exactly when the estimated mean is 0. select_parameters_with_ml_constant_mean refuses a model whose mean is not parameterised and a starting mean whose length is not 1, returns one mean parameter and as many covariance parameters as it was given, and a criterion value no larger than at its start; update_parameters_with_criterion with meanparam_len=k keeps the lengths of the stored parameters exactly when k is the length of the stored mean (or covers a model without covariance parameters), and update_parameters_with_ml_constant_mean never uses the initial guess when both parameters are stored.", "quantifier": "for all n, q, d, regularity p, points, data outside the span of the mean, lengths, parameters and optimiser strategies", "why_tests_cant": "an optimum over real parameters for every data set and the behaviour of an arbitrary optimiser; tests run one optimiser on a few data sets and compare with a tolerance", "anchors": ["gpmp/kernel/parameter_selection.py:negative_log_likelihood", "gpmp/kernel/parameter_selection.py:select_parameters_with_ml_constant_mean", "gpmp/kernel/parameter_selection.py:update_parameters_with_ml_constant_mean", "gpmp/kernel/parameter_selection.py:update_parameters_with_criterion", "gpmp/kernel/init.py:anisotropic_parameters_initial_guess_constant_mean"]}
{"id": "C111", "title": "Names, dictionaries and paths of Params", "statement": "Params built by make_anisotropic_param, param_from_covparam_anisotropic and param_from_covparam_anisotropic_noisy and put together with concat or + have distinct names exactly when their name prefixes are distinct; the noisy one needs at least two values, read as log variance, log noise variance and minus log ranges, each compared with its own bounds. Default names are distinct within a Param, but two Params with the same prefix always share names and two with different prefixes can. to_dict has one key per distinct name, which stands for the last entry of that name, while get_by_name and set_by_name use the first: with distinct names the two agree for every name, and when a name occurs twice a value written by set_by_name is read back by get_by_name but never appears in to_dict. set_from_unnormalized(**p.to_simple_dict()) succeeds and leaves p unchanged when names are distinct; otherwise the first entry of each repeated name receives the value of the last. The blocks get_by_path(q), for q in get_paths(), share out all the values without loss or repetition, and get_paths(prefix), names_by_path_prefix and select_by_path_prefix list the same entries in the same order.", "quantifier": "for all values, numbers of Params, prefixes, names, paths and orders of get_paths()", "why_tests_cant": "all prefixes and numbers of parameters; tests use one or two Params with fixed names", "anchors": ["gpmp/parameter/param.py: Param.__init__, Param.to_dict, Param.to_simple_dict, Param.get_paths, Param.select_by_path_prefix, Param.names_by_path_prefix, Param.get_by_name, Param.set_by_name, Param.set_from_unnormalized, make_anisotropic_param, param_from_covparam_anisotropic_noisy"]}
{"id": "C112", "title": "Order of the observations and of the target points", "statement": "Giving the observations (xi, zi) in another order leaves the predictions and their variances unchanged, permutes the weights and permutes zloo, sigma2loo and eloo; it leaves negative_log_likelihood, negative_log_restricted_likelihood and the Fisher information unchanged, and fails exactly when the original order fails. Dropping, repeating or reordering target points does the same to the means, variances and columns of weights, so predicting at many points is predicting at each of them.", "quantifier": "for all kernels, points (repeated points included), values, orders, selections of targets, the three kinds of mean, both backends", "why_tests_cant": "there are n! orders of the data; tests use one", "anchors": ["gpmp/core/model.py: Model.predict, Model.loo", "gpmp/core/kriging.py: select_predictor, kriging_predictor, kriging_predictor_with_zero_mean", "gpmp/core/loo.py", "gpmp/core/likelihood.py", "gpmp/core/fisher.py: fisher_information"]}
{"id": "C113", "title": "Adding and removing observations", "statement": "For every kind of mean, removing observations never decreases the posterior variance at any target, whatever the values. Observing, at new points, exactly the values that were predicted there changes no prediction. Removing observation i changes the prediction at a target t by -lambda[i,t]*eloo[i] and the (unclipped) variance by +lambda[i,t]^2*sigma2loo[i], where lambda comes from predict(..., return_lambdas=True) and eloo, sigma2loo from Model.loo.", "quantifier": "for all kernels, points, values, subsets of the observations, targets, and the three kinds of mean", "why_tests_cant": "relates the outputs of different public calls on all data sets; tests compare stored values on single data sets", "anchors": ["gpmp/core/model.py: Model.predict, Model.loo", "gpmp/core/kriging.py: kriging_predictor, kriging_predictor_with_zero_mean", "gpmp/core/loo.py: loo"]}
{"id": "C114", "title": "Finite-difference gradients of the NumPy backend", "statement": "On arrays of floats, gnp.grad and gnp.value_and_grad return, for every function returning a number, in each entry the five-point difference quotient in that variable alone, and the two agree; where the fifth derivative is bounded by M the error is at most M h^4/30, and this is attained. Two inputs give a wrong gradient without an error: a function returning a view of its argument (lambda x: x[:1]) has gradient 0 according to value_and_grad, and the right one according to grad; on integer arrays the entries are 7/(12h), about 58333, times the difference of f over one unit towards zero, and 0 at 0, and grad also truncates them.", "quantifier": "for all functions, points, dimensions, steps", "why_tests_cant": "the error bound quantifies over all smooth functions; the wrong cases depend on shared memory and on dtypes that tests do not combine with every function", "anchors": ["gpmp/num/numpy_backend.py: grad, value_and_grad", "gpmp/num/shared.py: derivative_finite_diff"]}
{"id": "C115", "title": "Likelihood differences are predictive log scores", "statement": "For zero, parameterized and linear-predictor means: the (restricted) negative log-likelihood of n observations is that of the n-1 others plus the negative log predictive density of the left-out value, computed either from the zloo and sigma2loo returned by Model.loo, or from Model.predict at the left-out point from the others (with the nugget added to the variance); for the restricted likelihood there is one more term, which depends on the trend and the points only. Hence the criterion of a sequence of observations is that of its beginning plus the log scores of the one-step-ahead predictions (plus that trend term).", "quantifier": "for all data, points, kernels, trends, backends, left-out observations, sequences", "why_tests_cant": "relates three separate computations (likelihood, leave-one-out, prediction) for every data set", "anchors": ["gpmp/core/likelihood.py: negative_log_likelihood_zero_mean, negative_log_likelihood, negative_log_restricted_likelihood", "gpmp/core/loo.py: loo", "gpmp/core/model.py: Model.predict"]}
{"id": "C116", "title": "Changing the units of the data", "statement": "Rewrite a Matern problem in other units: each coordinate of the points scaled by w_k != 0 and shifted, the observations multiplied by a != 0 and shifted by a combination of the trend functions, which may be replaced by any other basis of their span (zero mean: no shift; parameterized mean: the mean function follows). With log sigma2 increased by log a^2 and the log inverse ranges decreased by log|w_k|: covariance matrices are multiplied by a^2; Model.predict returns the same weights, the predictions and variances in the new units; Model.loo returns the leave-one-out values in the new units; every likelihood criterion changes by the constant n log|a| (REML: (n-q) log|a|), so ML and REML estimates correspond exactly. The zero-mean and linear-mean initial guesses, the default REMAP priors, starting points and objectives follow too, whether their arguments are given or resolved by default. The constant-mean initial guess follows scale changes, but not shifts: adding c to the data changes its variance unless c = 0 or c = -2 times the mean it returns.", "quantifier": "for all data, points, units, trend bases, parameters, regularities, backends, prior arguments", "why_tests_cant": "equivariance over all data and all changes of units, through prediction, selection and priors together", "anchors": ["gpmp/core/model.py: Model.predict", "gpmp/core/loo.py: loo", "gpmp/core/likelihood.py", "gpmp/kernel/matern.py: maternp_covariance", "gpmp/kernel/init.py", "gpmp/kernel/prior_helpers.py", "gpmp/kernel/parameter_selection.py: update_parameters_with_remap_gaussian_logsigma2_and_logrho_prior"]}
{"id": "C117", "title": "Figures of predictions show what they say", "statement": "Figure.plotgp draws the mean and, for each level of ci, the polygon of the pointwise interval mean -+ ppf((1+level)/2) sqrt(variance), which contains a normal variable with probability level. With the default colour scheme and at most three levels, not more than the labels, the band of level j carries label j + (number of labels - number of levels): its own exactly when there are as many labels as levels (ci=[0.95] alone is labelled CI 99.9%); increasing levels are drawn widest first, each inside the previous one; more than three levels or missing labels raise IndexError after the bands that have a colour and a label. The schemes hue, bw and simple draw one band, the first level with the first label; an unknown scheme or hue without colour raises before drawing; hue maps colours of components up to 255 to distinct codes of seven characters. crosssections draws each panel of its grid exactly once: the panel of an anchor and a dimension shows the prediction, with negative variances clipped, at nt points sorted along that dimension, equally spaced on the box plus the anchor, all other coordinates being those of the anchor, and marks the anchor; the sweep contains both ends of the box if nt >= 3 (with nt = 2 the upper end is missing) and stays in the box if the anchor does. If the prediction at the anchor is its value with zero variance, mean and bands pass through it. With integer xi the predictions are made at the coordinate truncated towards zero but drawn at the coordinate. By default all dimensions are swept from the first smallest value that is not NaN (if none is +inf); \"max\" takes the first largest. Indices out of bounds, negative ones included, raise IndexError; inconsistent shapes, nt < 2, unknown strings and data that are all NaN raise ValueError.", "quantifier": "for all data, levels, labels, colour schemes, anchors, dimensions, boxes, numbers of points, prediction functions", "why_tests_cant": "graphics are checked by eye; labels and abscissae must be right for all levels, anchors and types", "anchors": ["gpmp/plot/plotutils.py: Figure.plotgp", "gpmp/plot/plotutils.py: crosssections"]}
{"id": "C118", "title": "Diagnostic figures of PIT values and selection criteria", "statement": "plot_pit_ecdf: at u the curve of n >= 2 nonnegative PIT values is #(PIT < u)/(n-1), which exceeds the empirical distribution function just left of u by at most 1/n; nothing is drawn right of the largest value. plot_selection_criterion_crosssections: each panel shows every criterion along the parameter asked for, all others at the reference, at n_points equally spaced values of the reference -+ delta (the reference is one of them exactly for odd n_points >= 3), or of a column of param_box: the column of the position of the panel, not of the parameter, so the range is right when ind lists the first parameters in order and in general wrong otherwise; the title is the name of the parameter or its index; it succeeds exactly when ind is not empty, all its indices exist and the box has a column per panel; integer parameters truncate the values. plot_selection_criterion_2d: the cell at (x, y) shows the criterion at the parameters of info with the two varied ones replaced by those whose place on the figure, computed as for the marked points, is (x, y); the window is centred at the parameters of the model with half-width log10(factor); levels increase with the criterion except that all values within 1/100 of the minimum (without shift: all values up to 1/100, so all negative ones) are -2; a criterion that is NaN is drawn as 0, which is the best level if no value is negative; equal indices show the second axis only.", "quantifier": "for all PIT values, criteria, parameters, boxes, lists of indices, numbers of points, factors", "why_tests_cant": "graphics are checked by eye; the range, the place and the level must be right for all criteria and boxes", "anchors": ["gpmp/modeldiagnosis/plotting.py: plot_pit_ecdf", "gpmp/modeldiagnosis/plotting.py: plot_selection_criterion_crosssections", "gpmp/modeldiagnosis/plotting.py: plot_selection_criterion_2d"]}
{"id": "C119", "title": "Repeated noisy observations", "statement": "With the noisy covariance of the regression examples (noise variance times the flag of the row, on the diagonal only), observing a point several times is the same as observing it once with the precision-weighted average of the values and the inverse of the summed precisions as flag: Model.predict returns the same means and variances at all targets, and the kriging weight of the pooled observation is shared out in inverse proportion to the flags. The likelihood (restricted likelihood for a linear predictor) of the repeated observations is that of the pooled ones plus the density of the differences at the same points, so comparisons of latent covariances and means agree, but comparisons of noise variances do not: the gap is exactly ((n - n1)(ln t - ln t') + S (1/t - 1/t'))/2 with S the weighted squared differences, not constant as soon as a point is repeated. Model.loo of an observation that has a companion returns a variance between its noise variance and the sum of the two; for a covariance with the same nugget everywhere at most twice the nugget.", "quantifier": "for all latent covariances, means of all three kinds, designs, groupings, positive flags, noise variances, targets and data", "why_tests_cant": "needs the inverse of matrices of all sizes with arbitrary groups of rows; tests compare a few examples up to tolerances", "anchors": ["gpmp/core/model.py: Model.predict", "gpmp/core/model.py: Model.loo", "gpmp/core/likelihood.py: negative_log_restricted_likelihood", "gpmp/core/likelihood.py: negative_log_likelihood", "examples/gpmp_example06_1d_regression.py: kernel_ii_or_tt"]}
{"id": "C120", "title": "An unknown trend is the limit of a vague prior", "statement": "A linear predictor mean behaves as a known mean sum_k b_k p_k whose coefficients have been given independent prior variances s, put into the covariance as k(x,y) + s sum_k p_k(x) p_k(y), when s grows, whatever the prior means b: from some s0 on, Model.predict returns means and kriging weights within a/(s - s0) of those of the linear predictor and variances below them by at most a/(s - s0); Model.loo likewise at each observation without which the trend is still identified; the negative log-likelihood, less a constant which depends on s and the design only, is within k/(s - s0) of the negative log restricted likelihood, so the covariance function preferred by REML out of two is the one preferred by maximum likelihood once s is large enough. The covariance need only be positive definite on contrasts, as the linear predictor itself requires.", "quantifier": "for all covariances conditionally positive definite, trend bases of full rank, designs, data, targets, prior means and prior variances above a bound", "why_tests_cant": "a limit over all prior variances, with covariance matrices of all sizes; a test with a large variance meets rounding errors before the limit", "anchors": ["gpmp/core/model.py: Model.predict", "gpmp/core/model.py: Model.loo", "gpmp/core/kriging.py: kriging_predictor", "gpmp/core/likelihood.py: negative_log_restricted_likelihood", "gpmp/core/likelihood.py: negative_log_likelihood"]}
{"id": "C121", "title": "Less information, larger variances", "statement": "A model that is given less never reports a smaller variance: if the second model is fitted to some of the observations of the first, with a mean at least as unknown (every difference of two admissible means of the first is one of the second, e.g. a linear predictor instead of a known or zero mean, or further trend functions), a covariance function that exceeds the first by a positive semi-definite one and a nugget at least as large, then each variance of Model.predict and each leave-one-out variance of Model.loo (where the trend stays identified) is at least that of the first, whatever the data; likewise with the noisy covariance of the regression examples when the noise variances of the kept observations and of the targets are at least as large.", "quantifier": "for all pairs of such models, designs, targets and data", "why_tests_cant": "needs a comparison of minima over weights for kriging systems of any two sizes; tests compare a few nested models", "anchors": ["gpmp/core/model.py: Model.predict", "gpmp/core/model.py: Model.loo", "gpmp/core/kriging.py: kriging_predictor", "gpmp/core/loo.py: loo", "examples/gpmp_example06_1d_regression.py: kernel_ii_or_tt"]}
{"id": "C122", "title": "Only the span of the trend functions matters", "statement": "Replacing the trend functions of a linear predictor by others with the same linear combinations (centred or scaled monomials, another polynomial basis) changes nothing that the model returns: Model.predict gives the same means, variances and kriging weights, Model.loo the same results and the restricted likelihood the same value, whichever QR factors each of the two calls is given.", "quantifier": "for all lists of q functions with the same span, covariances conditionally positive definite, designs on which the trend is identified, data and targets", "why_tests_cant": "requires the inverse and the determinant of systems of all sizes under all changes of basis", "anchors": ["gpmp/core/model.py: Model.predict", "gpmp/core/model.py: Model.loo", "gpmp/core/likelihood.py: negative_log_restricted_likelihood"]}
{"id": "C123", "title": "Displayed numbers and tables can be trusted", "statement": "The text that DataFrame.__repr__, Param.__repr__ and pretty_print_dictionary show for a number, read as a decimal number, differs from it by at most half a unit of the last place shown (0.5% of the value with the three digits of the tables), has its sign, is zero only for zero, and the displayed numbers are ordered as the values are; infinities are shown as +Inf and -Inf. A NaN is never shown: the whole display raises ValueError (for the dictionary, after printing the entries before it). A table is shown exactly when it is two-dimensional (or an empty one-dimensional selection), has a name for every row, no NaN and no more column names than columns; then there is one line per row plus a header, all lines have the same length, and each named column holds its own values at the same positions in every line, at least 8 wide and no wider than its longest text (columns beyond the last name are left out without a word). The mantissa is not always normalised: 0.0099999 is shown as 10.000e-3 and 999.9996 as 1000.000.", "quantifier": "for all finite and infinite values, numbers of decimals at least 1, tables, lists of parameters and dictionaries, and all ways of rounding to nearest", "why_tests_cant": "the formatting switches between three formats at powers of ten and rounding can cross each switch, and the layout depends on all lengths; tests print a few tables", "anchors": ["gpmp/misc/dataframe.py: ftos", "gpmp/misc/dataframe.py: DataFrame.__repr__", "gpmp/parameter/param.py: Param.__repr__", "gpmp/modeldiagnosis/utils.py: pretty_print_dictionary"]}
{"id": "C124", "title": "Squared norms of the data as a measure of misfit", "statement": "The squared norm returned by Model.norm_k_sqrd_with_zero_mean (zero mean, or residuals of a known mean) and Model.norm_k_sqrd (linear predictor) is never negative and is zero exactly when the observations are the values of a mean that the model admits. It never increases when observations are removed, when the model admits more means, or when the covariance function or the nugget is made larger. Adding one observation adds exactly its squared error of prediction from the others divided by the variance of that error (the variance of Model.predict plus the nugget), so that the norm of all observations times that variance bounds the squared error; the norm of a subset equals that of all the observations exactly when the left out ones are equal to the predictions of Model.predict. For a constant mean it is zTKinvz - (Kinv1.z)^2/sum(Kinv1) with the values of Model.k_inverses.", "quantifier": "for all designs, subsets, observations, covariance functions, nuggets and means for which the norms exist (covariance positive definite, for a linear predictor on the contrasts, and trend identified)", "why_tests_cant": "relations between calls on different data sets and models; tests compute a norm on one data set", "anchors": ["gpmp/core/model.py: Model.norm_k_sqrd_with_zero_mean", "gpmp/core/model.py: Model.norm_k_sqrd", "gpmp/core/model.py: Model.k_inverses", "gpmp/core/linalg.py: norm_k_sqrd"]}
{"id": "C125", "title": "Fisher information and the amount of data", "statement": "For a fixed covariance function and finite-difference step, the matrix returned by Model.fisher_information or Model.fisher_information_cpd never increases (in any direction of the parameter space) when observation points are removed, when a known or zero mean is replaced by a linear predictor, or when trend functions are added. Hence, if the smaller matrix is invertible so is the larger, and the approximate variance of any combination of the parameters, read from the inverse matrix, is never larger with more points or a better known mean. For a parameter that multiplies the covariance matrix (the variance) the entry is m/2 times the squared relative difference quotient, with m the number of points, minus the number of trend functions for a linear predictor, whatever the points and the other parameters.", "quantifier": "for all designs, subsets, parametric covariance functions, parameters, steps and means for which the matrices exist", "why_tests_cant": "a relation between calls on different designs and models, for all of them; tests compare one matrix with a reference", "anchors": ["gpmp/core/fisher.py: fisher_information", "gpmp/core/fisher.py: fisher_information_cpd", "gpmp/core/model.py: Model.fisher_information", "gpmp/num/shared.py: derivative_finite_diff"]}
{"id": "C126", "title": "Predictions far from the data", "statement": "When all covariances between a target and the observation points are at most d in absolute value, the prediction of Model.predict differs by at most A d from a mean function of the model (zero, the given mean, or one combination of the trend functions chosen by the data, the same for all targets), and the returned variance is at least the prior variance minus A d^2, where A depends on the data and not on the targets; with a zero or given mean the variance never exceeds the prior one. For the Matern covariances of the library this gives a limit: for every tolerance there is a distance D such that all targets that differ by more than D from each observation point in at least one coordinate have a prediction within the tolerance of that mean function and a variance within the tolerance of sigma^2 (or above, with unknown trend coefficients), whatever the data, the parameters, the smoothness, the dimension and the number of targets.", "quantifier": "for all data, means and covariances with a positive definite matrix, all Matern parameters, tolerances and targets", "why_tests_cant": "a limit at infinity and a bound uniform over infinitely many targets; tests predict at a few points of a bounded grid", "anchors": ["gpmp/core/model.py: Model.predict", "gpmp/kernel/matern.py: maternp_kernel", "gpmp/kernel/matern.py: maternp_covariance"]}
{"id": "C127", "title": "Uncorrelated groups of observations", "statement": "With a zero or given mean, observations that are uncorrelated with a group of observations and with the targets do not influence predictions made from that group: Model.predict returns the same means and variances with and without them, the kriging weights of the group are the same and those of the other observations are zero; likewise Model.loo returns, for each observation of the group, the values obtained from the group alone. When all observations form two groups that are uncorrelated with each other, the negative log-likelihood, the squared norm of the data and the Fisher information matrix of all observations are the sums of those of the two groups. The order in which the observations of the groups are mixed in the arrays does not matter.", "quantifier": "for all covariance functions that vanish between the groups, all group sizes and orders, all data, targets and given means", "why_tests_cant": "relations between calls on different data sets, for all of them; tests do not compare a data set with its parts", "anchors": ["gpmp/core/model.py: Model.predict", "gpmp/core/model.py: Model.loo", "gpmp/core/model.py: Model.negative_log_likelihood", "gpmp/core/model.py: Model.fisher_information", "gpmp/core/linalg.py: norm_k_sqrd_with_zero_mean"]}
{"id": "C128", "title": "How fast predictions vary", "statement": "With a covariance function that is symmetric and positive semi-definite, the predictions and standard deviations of Model.predict vary no faster than the covariance allows. There is a mean function of the model such that the distance between the predicted mean and that function changes, between any two targets, by at most the norm of the data reported by norm_k_sqrd times the prior standard deviation of the difference between the two targets, and is never larger than that norm times the prior standard deviation at the target. The predictive standard deviations of two targets with the same trend values differ by at most the prior standard deviation of the difference between the targets. With a zero or given mean, changing the observed values changes the predicted mean at a target by at most the norm of the change times the standard deviation explained by the data there, and the nugget times the squared norm of the change is at most the sum of squares of the change, so small errors in the data have bounded effects. With the Matern covariances predictions minus the mean function and standard deviations are therefore uniformly continuous over the whole space: two targets that are close enough in every coordinate get values that differ as little as desired.", "quantifier": "for all symmetric positive semi-definite covariance functions with a non-negative nugget, all data, targets and mean types; all Matern covariances and identified means", "why_tests_cant": "bounds uniform over all targets and data; a test only compares finitely many pairs of targets", "anchors": ["gpmp/core/model.py: Model.predict", "gpmp/core/linalg.py: norm_k_sqrd", "gpmp/core/linalg.py: norm_k_sqrd_with_zero_mean", "gpmp/kernel/matern.py: maternp_covariance"]}
{"id": "C129", "title": "Proposal covariances of the Metropolis-Hastings sampler", "statement": "proposal_distribution_param_init is accepted exactly when it is a vector of length dim, a dim x dim matrix or a stack of n_chains matrices, and scheduler raises for every other shape, scalars included. A vector holds the variances of the coordinates, so the proposal is proper exactly when all entries are positive; a matrix is the covariance of every chain; a stack gives one covariance per chain; the default is the identity. One row of variances per chain is rejected, except that with as many chains as dimensions it is silently taken for one covariance matrix common to all chains. The matrices of a stack are not checked: 1 x 1 matrices are kept as they are with NumPy and become multiples of the identity with Torch. Whatever the sequence of runs, modes and adaptation blocks, the covariance of a chain is the one it would have if it were alone, no chain is changed by the adaptation of another one and the array given by the user is not modified; an accepted value never makes a later block fail. Robbins-Monro blocks multiply the covariance by exp of the sum of gamma (rate - target); a Haario block replaces it by scaling times the covariance of the block plus epsilon times the identity, with the scaling accumulated over all previous blocks. Calling scheduler again resets the covariances but keeps the scaling factors and so the same run repeated on one sampler differs.", "quantifier": "for all dimensions, numbers of chains, initial values, rates, covariances and sequences of calls", "why_tests_cant": "all histories of a sampler and aliasing between chains; tests run one short chain", "anchors": ["gpmp/mcmc/mh.py: MHOptions.__post_init__", "gpmp/mcmc/mh.py: MetropolisHastings._get_cov_parameter", "gpmp/mcmc/mh.py: MetropolisHastings._initialize_proposal_distribution_params", "gpmp/mcmc/mh.py: MetropolisHastings.set_mode", "gpmp/mcmc/mh.py: MetropolisHastings.run_adaptive_RM", "gpmp/mcmc/mh.py: MetropolisHastings.run_adaptive_Haario", "gpmp/mcmc/mh.py: MetropolisHastings.scheduler"]}
{"id": "C130", "title": "What the log of an SMC run says", "statement": "A call of SMC.step_with_possible_restart that does not restart appends four entries to smc.log, all with the new stage number: the first one still shows the effective sample size of the previous call (None on the first call), and the last two hold the acceptation rates of the moves with adjustment and of the mh_steps - 1 following ones. A call that restarts appends three entries and then three per intermediate level; it returns exactly when one of the levels is the target itself; the first four entries, and not only the last ones, show current_logpdf_param equal to the target although no particle has reached it, while logpdf_param_sequence and restart_iteration do tell which levels have been visited so far and are reset at the end; ess, in the two entries with the moves of a level, is the one computed at that level. No acceptation rate is lost or recorded twice, whatever the sequence of calls. The moves with adjustment stop at the first rate within the bounds or after mh_adjustment_max_iterations, and the scaling parameter is multiplied or divided by the adjustment factor once per rate outside the bounds. run_subset_simulation keeps one entry per stage, in which current_logpdf_param and ess are always None, target_logpdf_param is always the second threshold, and the mh_steps - 1 last moves of every stage are not recorded. plot_state draws every recorded rate beside the values of its own entry, plus one rate of zero, which was never observed, for every entry without moves.", "quantifier": "for all acceptation rates, effective sample sizes, levels, configurations and numbers of particles", "why_tests_cant": "the number of restarts, levels and adjustments depends on random particles; no test reads the log", "anchors": ["gpmp/mcmc/smc.py: SMC.update_log", "gpmp/mcmc/smc.py: SMC.log_snapshot", "gpmp/mcmc/smc.py: SMC.step", "gpmp/mcmc/smc.py: SMC.step_with_possible_restart", "gpmp/mcmc/smc.py: SMC.restart", "gpmp/mcmc/smc.py: SMC.move_with_controlled_acceptation_rate", "gpmp/mcmc/smc.py: SMC.plot_state", "gpmp/mcmc/smc.py: run_subset_simulation"]}
{"id": "C131", "title": "An input that takes one value only in the data", "statement": "Suppose that one coordinate has the same value v at all data points of a Matern model. Then Model.predict at points with that value, Model.loo and the likelihood criteria are exactly those of the problem without that coordinate and its range (the mean being taken at the value v). So the criteria do not depend on the log inverse range of that coordinate: it can be replaced by any number in a minimiser, and the row and the column of the Fisher information for it are zero, also with finite differences, so that the matrix is singular. At points where that coordinate differs from v, and for a mean that does not use it, everything depends on that undetermined range: dividing the range by f is the same as moving the targets f times as far from v; with the range going to zero the predictions tend to a mean function of the model with the prior variance, and with the range going to infinity to the predictions and standard deviations at the same point with the value v.", "quantifier": "for all regularities, dimensions, data, targets, means and parameters", "why_tests_cant": "a limit statement and an equality for all data; a test with such data would see arbitrary selected values", "anchors": ["gpmp/core/model.py: Model.predict", "gpmp/core/model.py: Model.loo", "gpmp/core/model.py: Model.negative_log_restricted_likelihood", "gpmp/core/model.py: Model.fisher_information", "gpmp/kernel/matern.py: maternp_covariance"]}
{"id": "C132", "title": "Symmetric data give symmetric predictions", "statement": "Suppose that a map of the input space keeps the covariances, and that it maps the data to themselves: each observed point to an observed point, and its value z to a z + g(x) with a = 1 or a = -1, the mean of the model being transformed in the same way. Then Model.predict at the image of a point gives a times the mean plus g and the same variance as at the point, with weights carried along, and Model.loo gives leave-one-out predictions, variances and errors with the same symmetry. For Matern covariances this applies to all reflections and translations of coordinates; with an odd symmetry and a zero mean the prediction on the axis is exactly zero. If exchanging coordinates maps the data to themselves, the likelihood criteria are symmetric functions of the ranges of these coordinates, so that a unique minimiser has equal ranges.", "quantifier": "for all regularities, dimensions, symmetric data, targets, means and parameters", "why_tests_cant": "exact symmetry for all data sets; a test would compare a few numbers with a tolerance", "anchors": ["gpmp/core/model.py: Model.predict", "gpmp/core/model.py: Model.loo", "gpmp/core/model.py: Model.negative_log_restricted_likelihood", "gpmp/core/model.py: Model.negative_log_likelihood", "gpmp/kernel/matern.py: maternp_covariance"]}
{"id": "C133", "title": "Linear algebra helpers of the two backends", "statement": "gnp.solve_triangular gives the same answer with NumPy and Torch when trans is 0. When trans is 1, Torch transposes first and applies the flag lower to the transposed matrix, where SciPy applies it to the matrix given: Torch with lower is SciPy with the opposite flag. For a lower triangular A with lower=True, trans=1, SciPy solves A^T x = b and Torch returns b_i / A_ii, which is right for all b if and only if A is diagonal. gnp.cholesky_inv of NumPy inverts every invertible matrix; with Torch it returns the inverse of the symmetric matrix that has the lower triangle of A, and raises unless that matrix is positive definite; the two agree on positive definite matrices. cho_factor followed by cho_solve with Torch solves the system for both flags if the matrix is positive definite, and raises otherwise. gnp.logdet with NumPy returns the logarithm of the determinant if it is positive and raises otherwise: the message says that the matrix is not positive definite, but a symmetric matrix of full rank with an even, non-zero number of negative eigenvalues is accepted.", "quantifier": "for all sizes, matrices and right-hand sides", "why_tests_cant": "agreement of two backends and the exact set of matrices accepted; a test runs one backend on a few matrices", "anchors": ["gpmp/num/torch_backend.py: solve_triangular", "gpmp/num/torch_backend.py: cholesky_inv", "gpmp/num/torch_backend.py: cho_factor", "gpmp/num/torch_backend.py: cho_solve", "gpmp/num/numpy_backend.py: logdet", "gpmp/num/numpy_backend.py: cholesky_inv"]}
{"id": "C134", "title": "What the Gelman-Rubin verdict looks at and what it can miss", "statement": "MetropolisHastings.compute_gelman_rubin_rhat and check_convergence_gelman_rubin use, in every chain, the iterations from burnin_period to the current one or the last last_n_samples ones, and raise exactly when there are fewer than two chains or two iterations. With default arguments the check starts at iteration 0, so that it includes the burn-in, while the statistic starts after it; with last_n_samples the argument burnin_period has no effect, and the burn-in is reached when last_n_samples is larger than the number of iterations after it. A coordinate passes a threshold t exactly when the variance of the chain means is below (t^2 - 1 + 1/n) times the mean of the variances of the chains, the latter being positive; the check answers yes exactly when every coordinate passes, so a coordinate that never moves makes it answer no; two chain means of a coordinate that passes differ by less than sqrt(2 (m - 1) (t^2 - 1 + 1/n) W). The order of the iterations within a chain plays no role, and chains that are copies of each other pass with rhat^2 = 1 - 1/n wherever they go. A negative burnin_period = -k reads the last k iterations while the formula counts n_steps + k of them.", "quantifier": "for all numbers of chains, iterations and coordinates, all values and arguments", "why_tests_cant": "all chains and windows; a test looks at a few random chains", "anchors": ["gpmp/mcmc/mh.py: MetropolisHastings.check_convergence_gelman_rubin", "gpmp/mcmc/mh.py: MetropolisHastings.compute_gelman_rubin_rhat"]}
{"id": "C135", "title": "Parameter statistics by integration", "statement": "Each row of selection_criterion_statistics describes exp(-criterion) as a function of one parameter, the others being held at their values, normalised on the interval [covparam_j - delta, covparam_j + delta] or on the box: its mean, variance, quantiles (within the tolerance of the root finder) and the minimiser reported by the bounded search, or covparam_j if that search fails. This holds as long as the criterion is continuous and stays between -709 and 745 on the interval; when it is above 745 all along the interval, or below -709, the function raises, although selection_criterion_statistics_fast answers on the same data. For a parameter on which the criterion does not depend the row describes the interval only: mean (lo + hi)/2, variance (hi - lo)^2/12, quantiles lo + p (hi - lo). For a criterion that is symmetric about covparam_j, without a box, the mean is covparam_j and the median is covparam_j within the tolerance.", "quantifier": "for all criteria, parameter vectors, indices, boxes and deltas, and all quadrature and root-finding routines that meet their contracts", "why_tests_cant": "all criteria; a test would use one criterion and a tolerance", "anchors": ["gpmp/modeldiagnosis/param_stats.py: selection_criterion_statistics", "gpmp/modeldiagnosis/un1ddist.py: Unnormalized1DDistribution"]}
{"id": "C136", "title": "Reproducibility and random seeds", "statement": "After gnp.set_seed(s), a computation whose random draws all go through gpmp.num (sample paths, NUTS with a seed, permutations) gives a result that depends on s only, whatever was drawn before, and leaves the other generators of the process as they were; without any seed it gives the same result in every new process, that of seed 1234. Computations that do not draw from gpmp.num (SMC, Latin hypercube and uniform designs) are not affected by gnp.set_seed. Random-walk Metropolis-Hastings draws its proposals from the global generator of NumPy or Torch: a seed makes the chain a function of the state of that generator, and two runs with the same seed differ as soon as their first proposals differ and are accepted. SMC objects created without rng share one generator. A shuffled DataLoader with a seed gives epoch e the order of seed + e, whatever is drawn between; an epoch left before its end is replayed; Dataset.split and k_fold_indices with seed s + e use the same order of rows as epoch e of a loader of seed s; repetition r of repeated_k_fold_indices has the order of seed + r, so studies whose seeds differ by d share all but d of their repetitions. A seeded split resets the generator: in a loop that draws and then splits with a fixed seed, all replicates after the first are the same.", "quantifier": "for all generators, computations, seeds, states of the generators, numbers of rows, epochs and repetitions", "why_tests_cant": "all computations and all histories of draws; a test checks one seed in one process", "anchors": ["gpmp/num/numpy_backend.py: set_seed, rand, randn, permutation, multivariate_normal.rvs", "gpmp/dataloader.py: Dataset.split, Dataset.k_fold_indices, Dataset.repeated_k_fold_indices, DataLoader.__iter__", "gpmp/mcmc/mh.py: MetropolisHastings.default_prop_rnd, MetropolisHastings.mhstep", "gpmp/mcmc/smc.py: SMC.__init__, ParticlesSet.__init__", "gpmp/mcmc/nuts.py: nuts_sample"]}
{"id": "C137", "title": "The normal law and random choices in the two backends", "statement": "gnp.normal.pdf of the NumPy backend is the density of the law whose distribution function is gnp.normal.cdf. That of the Torch backend is scale times this density: its integral over an interval is scale times the probability of the interval, its integral over the line is scale, and it is the exponential of gnp.normal.logpdf only when scale = 1. The two logpdf agree. gnp.normal.logcdf is a negative real number in exact arithmetic, but the Torch backend, which takes the logarithm of the rounded distribution function, gives -inf from nine standard deviations below the mean in double precision. Probability integral transforms agree when all variances are positive; one variance that is zero or negative makes the Torch backend raise for all the points, where NumPy marks that point by NaN. gnp.choice without replacement gives size distinct rows when there are enough; when there are not NumPy raises and Torch gives all the rows, fewer than asked; without a size NumPy gives a row and Torch an array of one row. A mean vector of length one given with a larger covariance matrix is repeated by Torch and refused by NumPy; all other means are treated alike.", "quantifier": "for all arguments, all positive scales, all roundings with the stated property and all permutations drawn", "why_tests_cant": "integrals over all intervals and all scales; the two backends are never compared by the tests at scales other than one", "anchors": ["gpmp/num/torch_backend.py: normal.cdf, normal.logcdf, normal.pdf, normal.logpdf, choice, multivariate_normal._mean_vector", "gpmp/num/numpy_backend.py: choice, multivariate_normal._mean_array", "gpmp/modeldiagnosis/performance.py: compute_performance"]}
{"id": "C138", "title": "Close observations with different values", "statement": "The squared norm of the observations given by norm_k_sqrd (linear mean) or norm_k_sqrd_with_zero_mean (on residuals) is the largest value, over the combinations of the observations that do not see the trend, of the squared combination divided by its variance under the model, and is attained. So it is at least the squared difference of any two observations with the same trend divided by the variance of that difference, which goes to twice the nugget as the points get closer. The condition number of the covariance matrix is at least the variance of the sum of two observations divided by the variance of their difference. With the Matern covariance, which holds a nugget of 10 eps times the variance, the variance selected by maximum likelihood with a linear mean is at least (z_i - z_j)^2 / (2 n (1 - rho_ij + 10 eps)), and that selected by restricted likelihood (z_i - z_j)^2 / (2 (n - q) (1 - rho_ij + 10 eps)), at any length scales; a point observed twice with different values forces it above (z_i - z_j)^2 / (20 n eps), whatever the other observations.", "quantifier": "for all kernels, designs, observations, pairs of points, length scales, regularities and numbers of trend functions", "why_tests_cant": "a bound over all data sets and all length scales; tests use a few noiseless data sets with distant points", "anchors": ["gpmp/core/model.py: Model.norm_k_sqrd, Model.norm_k_sqrd_with_zero_mean", "gpmp/core/likelihood.py: negative_log_likelihood, negative_log_restricted_likelihood", "gpmp/kernel/matern.py: maternp_covariance_ii_or_tt", "gpmp/kernel/parameter_selection.py: select_parameters_with_reml"]}
{"id": "C139", "title": "What conversions do to values, memory, types and gradient flags", "statement": "Without a dtype gnp.asarray keeps all values exactly on both backends: single precision becomes double, other types stay, the shape stays, except that a Python number becomes a vector of length one on NumPy and an array without axes on Torch; the only arguments refused are NumPy arrays with a negative stride, such as x[::-1], on Torch. Writing into the result changes the argument exactly when the argument is an array not in single precision; gnp.array protects the argument on NumPy but behaves like asarray on Torch; gnp.copy protects it on both. gnp.to_np(gnp.asarray(x)) on Torch is a view of the NumPy array x: a later change of x changes the tensor. gnp.asint gives 64-bit integers on NumPy and 32-bit integers on Torch; the two agree when the values are between -2^31 and 2^31 - 1, and an integer outside this range is changed by a multiple of 2^32 on Torch. One-element arrays are scalars for gnp.isscalar on Torch and not on NumPy. gnp.inftobigf turns minus infinity into plus bigf. gnp.nan_to_num replaces NaN, plus infinity and minus infinity by the three given values and keeps everything else; copy=False changes its argument on NumPy only, and the default copy=True is refused on Torch exactly for a tensor that requires a gradient while operations are recorded. evaluate_pre_grad and evaluate_no_grad of the Torch batch criterion set the gradient flag of the parameter of the caller, when this is a tensor not in single precision, to true and to false; they raise exactly for integer parameters in the first case and for results of recorded operations in the second.", "quantifier": "for all arguments (numbers, nested lists, arrays of five element types), shapes, values and states of the memory", "why_tests_cant": "sharing shows only when somebody writes later; all types, values and shapes", "anchors": ["gpmp/num/numpy_backend.py: array, asarray, asint, to_np, inftobigf", "gpmp/num/torch_backend.py: array, asarray, copy, asint, to_np, isscalar, inftobigf, nan_to_num", "gpmp/num/torch_backend.py: BatchDifferentiableSelectionCriterion._prepare_param"]}
{"id": "C140", "title": "Extremes, covariances, clipping and splitting in the two backends", "statement": "gnp.min(x) and gnp.max(x) without an axis give the smallest and the largest element on NumPy; on Torch they do so for numbers and vectors, while for a matrix they give the extremes of the columns, whose extreme is the NumPy value; with an axis both backends give the extremes of the columns (axis 0) or of the rows (axis 1), keepdims keeps that axis with length one, and any other axis is refused. gnp.cov(x, rowvar=False) of a vector of n >= 2 numbers is the variance with divisor n - 1 on NumPy and an n by n matrix of NaN on Torch; with rowvar=True both give the variance. gnp.clip with lo <= hi gives the same for floating point elements on both backends, always between lo and hi; for integer elements Torch cuts the bounds to integers, so the results agree exactly when the bound that applies is an integer, and the Torch result is below a positive fractional lower bound. gnp.split with boundaries in order gives on NumPy one part more than there are boundaries, the parts together being x; Torch gives the same parts unless the boundaries add up to the length of x, in which case it takes them for sizes and always returns something else, and it refuses an empty list. gnp.split(x, n) gives n equal parts or an error on NumPy and parts of at most n elements on Torch; the two agree exactly when x has n*n elements.", "quantifier": "for all arrays with at most two axes, all axes, boundaries, bounds and numbers of parts", "why_tests_cant": "the two backends agree on most small inputs; the difference depends on sums of boundaries, fractional bounds and shapes", "anchors": ["gpmp/num/torch_backend.py: min, max, cov, clip, split", "gpmp/num/numpy_backend.py: min, max, cov, clip, split"]}
{"id": "C141", "title": "The object for second derivatives answers about the last point only", "statement": "On a SecondOrderDifferentiableFunction, whatever was called before, gradient() and hessian() never mix two points: after evaluate(x), gradient() returns the gradient at x, or raises RuntimeError exactly when f raised, did not return one number or did not compute it from x; hessian() returns a matrix exactly when, in addition, gradient() has been called since that evaluate(x) and every entry of the gradient is computed from x by recorded operations, and raises RuntimeError otherwise, in particular when the only call of gradient() was for an earlier point. evaluate raises for a result with axes, but a result with one element and an axis still serves the next call of gradient(). The matrix is symmetric, has the quadratic form of the matrix of second derivatives, and equals it wherever that matrix is symmetric. fisher_information_torch returns half of it, or the error (the class exists in the Torch backend only).", "quantifier": "for all functions, all sequences of calls and all points with at least one coordinate", "why_tests_cant": "all sequences of calls on one object, including failing ones", "anchors": ["gpmp/num/torch_backend.py: SecondOrderDifferentiableFunction", "gpmp/core/fisher.py: fisher_information_torch"]}
{"id": "C142", "title": "Figures of the NUTS diagnostics and of the leave-one-out predictions", "statement": "plot_nuts_diagnostics calls gnp.convolve, which neither backend has: it raises AttributeError exactly when window > 1 and the number of warm-up iterations or of samples is at least window (50 by default); the files written before the failure are the step size alone, or the three warm-up figures when the warm-up is shorter than the window. sample_from_selection_criterion_nuts with plot_diagnostics=True then raises after the sampling and the samples are lost; with plot_diagnostics=False, or for shorter runs, it returns them. Otherwise five figures come back with the curves averaged over the chains and no smoothed curve. With numpy.convolve in place moving_average would give the means of the last window values. In plot_loo the diagonal spans all observed values, predictions and bars; it meets the bar of a point exactly when the prediction is within 1.96 standard deviations of the observed value, and a point has no bar exactly when its variance is negative.", "quantifier": "for all windows, numbers of iterations and chains, data and predictions", "why_tests_cant": "the failure appears only for runs at least as long as the window; all lengths and windows", "anchors": ["gpmp/mcmc/nuts.py: moving_average, plot_nuts_diagnostics", "gpmp/mcmc/param_posterior.py: sample_from_selection_criterion_nuts", "gpmp/plot/plotutils.py: plot_loo"]}
{"id": "C143", "title": "The dtype argument and new arrays in the two backends", "statement": "gnp.asarray(x, dtype=d), with d one of double and single precision, 64- and 32-bit integers and booleans, gives the same type, shape and values on both backends: values are kept when x has the type already, rounded for single precision, cut toward zero for integers in range, and booleans are false exactly for zero; memory is shared with x exactly when x is an array of that type; only NumPy arrays with a negative stride are refused, on Torch. A dtype that is not a torch.dtype or float, int, bool is resolved on Torch by the first of float32; float64 or double; int64 or long; int32; bool that is part of its name, in capital or small letters, and raises when there is none (float16, complex128, int8, the strings 'float' and 'int'). So the unsigned types uint32 and uint64 become signed on Torch: 64-bit integers z converted to uint32 agree with NumPy exactly when the remainder of z modulo 2^32 is less than 2^31, to uint64 exactly when z >= 0. After a = gnp.full(shape, v); a[i] = r the element is r on NumPy; on Torch it is r exactly when v is a float, and r cut toward zero when v is an int. gnp.linspace(a, b, n) gives on both backends n equally spaced values from a to b, gnp.logspace positive values with a constant ratio. gnp.meshgrid(x, y) without indexing gives on NumPy the transposes of the arrays of Torch, with indexing the same arrays.", "quantifier": "for all names, arguments, integers of 64 bits, fill values, grids and lengths", "why_tests_cant": "the unsigned wrap and the integer fill show for particular values and one backend only; all names and values", "anchors": ["gpmp/num/torch_backend.py: _resolve_torch_dtype, asarray, full, linspace, logspace, meshgrid", "gpmp/num/numpy_backend.py: asarray, full, linspace, logspace, meshgrid"]}
{"id": "C144", "title": "Bases returned by qr_nullspace", "statement": "qr_nullspace(P) returns (Q1, W, Rq) with P = Q1 Rq, orthonormal columns in Q1 and W, Q1'W = 0, P'W = 0, Rq upper triangular and det(Rq)^2 = det(P'P); every vector has exactly one decomposition Q1 a + W b, and the columns of P are combinations of those of Q1. The columns of W span the null space of P', and those of Q1 span the columns of P, as the documentation announces, exactly when P has full column rank, that is when det(Rq) is not zero; otherwise the null space of P' contains vectors that are no combination of W and no error is raised.", "quantifier": "for all matrices P with at least as many rows as columns, over any real closed field", "why_tests_cant": "the documented bases fail only for rank deficient P; all shapes and ranks", "anchors": ["gpmp/core/linalg.py: qr_nullspace"]}
