# Formal model of gpmp: design

Source: `/repo` (gpmp-dev/gpmp, pinned commit), read as text, never executed.
Model and proofs: `rocq/theories/*.v` (Coq 8.16.1), built with
`coq_makefile -f _CoqProject -o Makefile && make -j4` in `rocq/`.

The claims are in `properties.jsonl`, the theorems for each claim in `MANIFEST.json`, the log of the wrong
programs tried against the theorems in `seeded/LOG.jsonl`.

## Layout

For each area `X` of the code:

* `XModel.v`: total Gallina transcription of the functions. Every definition carries a comment citing file and
  lines, with its simplifications. No proofs.
* `XProofs*.v`: the independent vocabulary in which the property is stated (permutation, sum, positive definite,
  closest value...) at the top, then the lemmas.
* `XThms*.v`: the property theorems, named `Cnn_...`, a concrete non-trivial `Example` next to each group, and
  `Print Assumptions`.

Where the code does not do what its documentation says, the property states exactly what the code does and for
which inputs it goes wrong, and a witness theorem (often with suffix `_refuted`) shows the failing case.

## General modelling conventions

* Arrays of floats are vectors/matrices over an ordered field (mathcomp `rcfType`, quantified inside closed
  Sections) or over Coq's classical reals `R`. **Rounding is not modelled**: theorems are about exact
  arithmetic. Where NaN or an infinity changes control flow, values are the explicit type
  `fl := Fin r | PInf | NInf | NaN` (`FlModel.v`), with the IEEE rules for the special values (comparisons with NaN
  are false, inf - inf is NaN, 0 * inf is NaN). Overflow to infinity and signed zeros are not modelled, except the
  overflow of `math.exp` in NUTS dual averaging.
* Exceptions are values (`option`/`sum`/`result`); theorems speak about that branch.
* Random draws (permutations, uniforms, normals, proposals, multinomial counts) are arguments: theorems quantify over
  all of them. For NUTS the uniform draws are nodes of a free monad, so that laws can be stated.
* User callbacks (mean, covariance, log-density, criterion) and external optimisers are function arguments.
* `solve`/`inv` = exact inverse (failure when singular); `cholesky` is the textbook recursion, proved correct;
  `qr`/`svd` are arguments constrained by their contract, which is shown satisfiable (`LinQR.v`).
* Object identity tests (`y is x`) are a boolean argument.
* Non-terminating loops are fuelled; "never terminates" means "out of fuel for every fuel".
* Printing, plotting, timing, logging, progress bars, threads and device placement are left out everywhere.

## Per property: what is modelled and how it is proved

| id | modelled | proof |
|----|----------|-------|
| C01, C02, C10 | `DataLoader.__iter__/_fetch_batch/__len__/__getitem__/set_epoch`, `collate_batches`, on lists of rows (DataModel) | induction on the chunks of an epoch; permutation algebra; fuel for the infinite loader |
| C03-C05 | `Dataset` shards, bisect index, `subset`, `split` (DataModel) | induction on shards; Permutation |
| C06, C07 | `k_fold_indices`, NumPy `split`, the Torch `split` size heuristic (DataModel) | list splitting; arithmetic characterisation of the failing (n, k) |
| C08, C09, C11 | shard reducers, `reduce_mean`, scalers, `_EPS` guard (ReduceModel); one column at a time | fold/append algebra over R |
| C12-C14 | `Param` as a record of parallel lists (ParamModel), methods return object left behind + raised flag | list update lemmas; exp/ln inverse; witnesses |
| C15, C73 | `DataFrame` without printing (FrameModel); an array store for aliasing after `concat`/`append` | list lemmas |
| C16 | `compute_gammaln` table state machine (ConfigModel) | invariant over request histories |
| C17, C18 | config and prior defaults state machines (ConfigModel) | invariants over histories; witnesses |
| C19-C27 | kriging, `Model.predict` (KrigModel) on mathcomp matrices | completing the square; block inverse algebra; explicit 2x2 witnesses for the fallback |
| C28, C29 | leave-one-out formulas (KrigModel) | Schur complement / block inverse, deleting a row via `row'`/`col'` |
| C30, C31, C74 | likelihoods with executable Cholesky (LikModel), initial guesses (InitModel) | determinants of triangular factors; contrast change of basis; 1-D minimisation of the likelihood in sigma2 |
| C32-C34 | Fisher information, Torch variant, 5-point stencil | trace algebra, Gram form; autodiff is a relation (see trusted base) |
| C35, C36 | sample paths and conditioning | matrix algebra; laws are described by finite weighted families of paths with given mean and covariance |
| C37-C40 | Matern kernels for every half-integer order p and dimension d (MaternModel, MaternCov) | induction on p; positive definiteness in every dimension as a limit of mixtures of Gaussian kernels over finite intervals (MaternPsd*) |
| C41-C43, C75 | priors and prior cut-offs (PriorModel, PriorMat) | real analysis, case analysis |
| C44 | resolution of covparam0 / prior arguments (PriorModel) | case analysis |
| C45-C47, C76 | autoselect, bounds, batched criteria (SelectModel). The optimiser is an arbitrary finite strategy tree of evaluations | fold invariants, induction over calls |
| C48-C52, C77, C78 | SMC particle set, tempering/level search, restart, subset simulation (SmcModel) | list/count lemmas, Cauchy-Schwarz, fuel |
| C53-C60, C79, C80 | MH kernel, bookkeeping, adaptation, diagnostics (MhModel, MhMat) | invariants over histories |
| C61-C65, C81, C82 | leapfrog, tree, transition, windows, Welford, dual averaging (NutsModel) | structural induction on depth; shear determinant; law of the selected state on the slice |
| C66, C67, C83 | CRPS, truncated CRPS, expected improvement (ScoreModel); Phi defined as an integral | calculus with Coquelicot |
| C68, C69, C84 | designs (DesignModel) | list and real algebra |
| C70, C71, C85-C87 | performance, 1-D distribution, parameter statistics, cross-section grids (DiagModel) | list and real algebra |
| C72, C88 | SVGD kernel, step, loop (SvgdModel) | list algebra, step invariants |
| C89, C90 | preparation of the sampler inputs, MH entry point (PostModel) | case analysis on array shapes; the scheduler invariants of C53-C58 |
| C91 | SMC entry point (PostModel over SmcModel) | invariants over the tempering run |
| C92 | SVGD entry point (PostSvgdModel over SvgdModel) | step invariants |
| C93-C96 | all of misc/testfunctions.py (TestfunModel) | real analysis: completing squares, bounds on exp, Riemann integrals, monotonicity |
| C97 | the Jeffreys, log-variance, log-range and combined criteria on a Matern model (PriorCritModel) | closed form in log variance, strict convexity, intermediate values |
| C98 | nearest-neighbour covariance and perturbation step of the SMC sampler (KnnModel) | quadratic forms as means of sample variances |
| C99 | core/utils.py and kernel/utils.py (UtilsModel) | case analysis on shapes and on the arguments given |
| C100 | dataloader branches of kernel/init.py, reduce_mean (InitLoaderModel) | induction over the batches; profile likelihood; blocks of the inverse covariance (variational form) |
| C101, C102 | nuts_sample, NUTS entry point, option merging, NumPy value_and_grad (NutsRunModel over NutsModel) | the run refines chained transitions and the warm-up loop; invariants through possible results |
| C103 | the two REMAP select/update wrappers as objective and start handed to the selection (RemapModel) | the penalty vanishes to second order at its own anchor; monotone bounded sequences, limit by continuity |
| C104 | restricted likelihood and REMAP criteria over the batches of a loader, one full pass per evaluation (RemapModel over SelectModel.batch_eval) | size-weighted sums of closed-form profiles |
| C105 | quantile, median, std and sampled quantile reducers, RobustScaler.fit (QuantModel); percentile as sorting and linear interpolation at q (n - 1) | uniqueness of sorted permutations; the two formulas agree at the knots; counting in a sorted list |
| C106 | DataFrame.__setitem__ (FrameSetModel) with NumPy's repetition of axes of length one; keys described by a relation independent of the model | slice positions are distinct and in range; induction over the cells written |
| C107 | the arrays behind Param (ParamMemModel): heap of buffers, views, in-place writes, new arrays, integer arrays | frame conditions preserved by every update; refinement to ParamModel |
| C108 | modeldiagnosis_init, to_simple_dict, the builders of anisotropic Params, sigma_rho_from_covparam (ReportModel) | dictionaries as association lists; injectivity of decimal names; sorted index lists are unique |
| C109 | sample_multivariate_normal_with_jitter, _get_pooled_samples, compute_empirical_covariance_whole_chain, check_acceptance_rates (MhPoolModel) | induction on the attempts; monotonicity of positive definiteness under shifts; scatter about a mean; nth/take/drop on groups |
| C110 | negative_log_likelihood with a linear mean, select/update_parameters_with_ml_constant_mean, update_parameters_with_criterion, initial guesses (MlModel, SelectModel, InitModel) | generalised least squares minimiser and profile in the variance; contrasts for the restricted likelihood; traces of an arbitrary optimiser |
| C111 | default names, to_dict, to_simple_dict, get_paths, param_from_covparam_anisotropic_noisy with a prefix (ParamNamesModel, ParamModel) | the name suffixes form a suffix code; last assignment wins in an association list; induction on the keyword arguments; partition by path |
| C112 | predict, loo, nll, nrl, fisher at arrays of points (OrderModel over KrigModel, LikModel) | a permutation is an orthogonal change of basis; Cholesky succeeds for both or neither; the restricted likelihood does not depend on the contrast basis |
| C113 | predict and loo at arrays of points (OrderModel over KrigModel) | the three means as one block system; optimality against zero-padded weights; dual form of the predictor; rank-one downdate |
| C114 | `grad`, `value_and_grad` of the NumPy backend and `derivative_finite_diff`, with the array that the four calls of the function share, results that are views of it, and the truncation by integer arrays | induction over the loop with the array restored after each turn; the error bound by comparing functions from their derivatives three times (Coquelicot's mean value theorem); truncation beside an integer |
| C115 | the likelihoods, Model.loo and Model.predict at arrays of points (OrderModel, LikModel) | the three kinds of mean are put in the common form of a trend with 0 or q columns; block inverse after the removal of one row gives the change of the quadratic form and of the determinant of the kriging system; the determinant of the contrast covariance is that of the kriging system over det(P'P); sequences by induction |
| C116 | Model.predict, Model.loo, the likelihoods, the Matern covariances, the initial guesses, the REMAP objectives (OrderModel, LikModel, MaternCov, InitModel, RemapModel) | the kriging system in new units is a congruence of the old one, so that weights are kept, variances scaled and determinants multiplied by a known constant; guesses by uniqueness of the profile minimiser (linear mean) or by computation; priors see differences of logarithms only, and the default cut-offs are affine in the logarithms of the units |
| C117 | Figure.plotgp, crosssections (PlotModel): the list of artists drawn, in order, and the exception raised | induction over the bands and over the two loops of panels, with the numbering of the panels a permutation; sorting and equally spaced points from QuantProofs, DesignProofs |
| C118 | plot_pit_ecdf, plot_selection_criterion_crosssections, plot_selection_criterion_2d (DiagPlotModel): the arrays handed to Matplotlib | counting in sorted lists; induction over the panels; logarithms base 10 inverse to the powers of the mesh |
| C119 | kernel_ii_or_tt, kernel_it of examples/gpmp_example06_1d_regression.py (ReplModel) with Model.predict, Model.loo and the likelihoods of the other files | rows tagged by their index make the noise a kernel, so the common form of the three kinds of mean applies; the block system of the groups solves the whole one; determinant lemma; Cauchy-Schwarz for the leave-one-out variance |
| C120 | Model.predict, Model.loo and the likelihoods as in C113 to C115 (no further definitions; the vague prior is a covariance function of the user) | the inverse of K + sPP' is B + D(sI - F)^-1 D' with B, D, F the blocks of the inverse of the universal kriging system; bounds on (sI - F)^-1 and on its determinant from the entries of F; ln(1 + t) <= t |
| C121 | as C113 and C119, no further definitions | the weights of the second model are feasible for the minimisation which the first one solves; the leave-one-out variance is the minimum of u'Ku over contrasts with u_i = 1 |
| C122 | as C113 to C115, no further definitions | the change of basis is invertible by full rank; uniqueness of the solution of the universal kriging system; both determinants are multiplied by the same square |
| C123 | ftos, DataFrame.__repr__, Param.__repr__ and pretty_print_dictionary on strings of characters, exceptions as values; rounding to nearest is an argument | the text is read back by an independent parser (DispSpec): the value is a multiple of a unit that is constant between consecutive switching points, which are multiples of it; layout by induction on the columns |
| C124 | norm_k_sqrd_with_zero_mean, norm_k_sqrd and k_inverses with the covariance matrices of C113 | the norm is z'Bz for the B with P'B = 0 and KB + PC = 1; with w = Bz and u the same for the subset, extended by zeros, the form of w - u is the difference of the norms plus the slack of the covariances |
| C125 | fisher_information and fisher_information_cpd with finite differences of the covariance matrices of C113 | half tr(BDBD) with B as in C124; B of the subset, extended by zeros, is below B, and the trace is monotone by factoring both matrices; inverses by the same lemma without trend |
| C126 | predict as in C113 and the Matern covariances as in C116 | dual form of the predictor (covariances times fixed weights plus a fixed trend); variance compared with simple kriging by C121's lemma; the Matern kernel is below C/h because exp dominates powers |
| C127 | predict, loo, criterion, norms and Fisher information as in C113, C115, C124, C125 | the selection matrix S of a group intertwines K and the matrix of the group (K S = S K1), hence their inverses; weights by uniqueness; traces, quadratic forms and determinants split by S1 S1' + S2 S2' = 1 |
| C128 | predict and norms as in C113, C124; Matern kernels as in C39 | joint covariance of data and targets is positive semi-definite; Cauchy-Schwarz and the triangle inequality for its quadratic form; the predictive variance is the smallest squared norm among unbiased weights; continuity of the Matern polynomial times exponential at 0 |
| C129 | proposal parameters in memory cells: init, covariance, set_mode, Robbins-Monro and Haario blocks, repeated scheduler calls | refinement: the cells of the chains are distinct and disjoint from the user's array, so every history equals the per-chain history; induction over histories |
| C130 | SMC.log and log_data of step, restart, adjusted moves and subset simulation; the series of plot_state | induction on the adjustment iterations and on the levels of a restart; invariant: recorded rates are the rates of all moves in order |
| C131 | predict, loo, criteria and Fisher information of Matern models (OrderModel, MaternCov, KrigModel) with one constant coordinate | the covariance of points with the same value is that of the other coordinates; a change of the range is a dilation around v that fixes the data; limits from C126 and C128 |
| C132 | predict, loo and criteria (OrderModel, LikModel, MaternCov) on data that a map sends to themselves | the map is a change of units (C116) and a permutation of the observations (C112) at the same time |
| C133 | solve_triangular, cholesky_inv, cho_factor, cho_solve of the two backends, logdet of NumPy (LinBackModel) | triangles and transposes commute up to exchange; Cholesky factor reads the lower triangle; sign of the determinant of T^T D T; Torch's logdet not modelled |
| C134 | compute_gelman_rubin_rhat and check_convergence_gelman_rubin with their arguments (RhatModel, MhModel) | arithmetic of the windows; value of rhat (C60); sum of squares of two means; permutations |
| C135 | selection_criterion_statistics (StatModel, DiagModel) | quadrature theorems of C71 row by row; integrals of polynomials; reflection of the integral about the selected value; strict monotonicity of the distribution function |
| C136 | set_seed of the two backends, split, k_fold_indices, repeated_k_fold_indices, DataLoader.__iter__, the draws of nuts_sample, Metropolis-Hastings and SMC (SeedModel) | computations as trees of draws over an arbitrary generator; induction on the computation; induction on epochs, repetitions and replicates; concrete generator in the examples |
| C137 | normal.pdf, logpdf, cdf, logcdf, choice and the mean argument of multivariate_normal in the two backends; PIT on Torch (LawModel) | fundamental theorem of calculus; limits of the distribution function; Mills bound and a lower bound of exp 40 for the tail; permutations |
| C138 | norm_k_sqrd, likelihoods and Matern covariance of earlier models (CloseThms adds theorems only) | Cauchy-Schwarz for the covariance form on combinations without trend, with equality at K^-1 y; uniqueness of the minimisers of C110 |
| C139 | asarray, array, copy, asint, to_np, isscalar, inftobigf, nan_to_num, _prepare_param of the two backends over a memory with blocks, objects and flags (ConvModel) | case analysis on type and kind; blocks older than the call are kept; arithmetic modulo 2^32 |
| C140 | min, max, cov, clip and split of torch_backend.py beside the NumPy functions (AxisModel, DataModel) | induction over lists and boundaries, floor and integer division |
| C141 | SecondOrderDifferentiableFunction as a state machine over numbered tensors, and its use in fisher_information_torch (SodfModel) | invariant over sequences of calls; sums exchanged |
| C142 | moving_average, plot_nuts_diagnostics, the end of sample_from_selection_criterion_nuts, plot_loo (NutsPlotModel) | case analysis on the window; sums over windows; order of the reals |
| C143 | _resolve_torch_dtype, asarray with a dtype, full, linspace, logspace, meshgrid (DtypeModel, ConvModel) | the search for parts of a name is correct by induction on strings; case analysis on the conversions; division with remainder; field arithmetic |
| C144 | qr_nullspace (NullModel) | block form of the orthogonal factor; a square matrix is invertible exactly when it is injective |

## What is modelled, file by file

| file of `/repo/gpmp` | modelled | not modelled |
|---|---|---|
| `dataloader.py` | `Dataset` (len, getitem, subset, split, k-fold, repeated k-fold, reducers min/max/mean/var/std), `DataLoader`, scalers, `collate_batches` | `__repr__`, quantile/median reducers (sorting of all rows), construction checks of `Dataset.__init__` other than the shard lengths |
| `config.py`, `num/shared.py`, `kernel/prior_defaults.py` | all state changes, `compute_gammaln`, `derivative_finite_diff` | `__str__`/`__repr__`, logger objects, `try_with_postmortem` |
| `num/numpy_backend.py`, `num/torch_backend.py` | `split`, `scaled_distance*`, `cdist` variants, `cholesky_inv/solve`, `DifferentiableSelectionCriterion`, `BatchDifferentiableSelectionCriterion`, `derivative` stencil, `safe_neginf` as -inf | array plumbing (dtype, device, `asarray`, `percentile`...), `multivariate_normal`, autodiff internals, `SecondOrderDifferentiableFunction` |
| `parameter/param.py` | everything but `__repr__`, `to_dict` | aliasing of the caller's arrays |
| `core/kriging.py`, `core/loo.py`, `core/linalg.py`, `core/likelihood.py`, `core/fisher.py`, `core/sample_paths.py`, `core/model.py` | every numerical function | shape coercion (see `core/utils.py`), printing |
| `core/utils.py` | everything; dtype and device not modelled | |
| `kernel/matern.py`, `kernel/exponential.py` | everything | |
| `kernel/init.py`, `kernel/bounds.py` | array branches and dataloader branches (one finite pass) | |
| `kernel/priors.py`, `kernel/prior_helpers.py` | all log-priors, cut-offs, argument resolution | Jacobian of `log_prior_reference` comes from autodiff |
| `kernel/parameter_selection.py` | `make_selection_criterion_with_gradient`, `autoselect_parameters`, `select/update_parameters_with_criterion`, the objective and start of the two REMAP select/update wrappers, the batched REML and REMAP criteria | printing, timing, the other wrappers (they forward a criterion to the modelled functions) |
| `kernel/utils.py` | everything | |
| `mcmc/mh.py` | kernel, scheduler, adaptation, rates, Gelman-Rubin, KS checks | plots, prints, the KS p-value itself |
| `mcmc/nuts.py` | all numerical functions, the driver over all chains, option merging | logging, progress bars, plots, `describe_windows` |
| `mcmc/smc.py` | `ParticlesSet`, `SMC` (steps, level search, restart), `run_subset_simulation` | plots, logs |
| `mcmc/svgd.py` | all numerical functions | plots |
| `mcmc/param_posterior.py` | `_resolve_selection_criterion`, `_prepare_sampling_inputs` and helpers, `_make_log_prob_mh`, the MH, NUTS, SMC and SVGD entry points, `get_log_target_values`, burn-in slice | plots |
| `mcmc/knn_cov.py` | everything; neighbour index and random choice are arguments | |
| `misc/dataframe.py`, `misc/designs.py`, `misc/scoringrules.py` | everything but printing | |
| `misc/testfunctions.py` | every function, row by row, over the reals | |
| `modeldiagnosis/*` | `performance.py`, `param_stats.py`, `un1ddist.py`, `utils.py`, data section of `report.py` | `plotting.py`, printing |
| `plot/*` | nothing | all |

## Trusted base

1. Coq 8.16.1's kernel (no flag of the kernel is switched off; `coqchk` accepts the library).
2. The axioms listed per theorem in the last section. All of them belong to Coq's standard library: the classical
   reals (`sig_forall_dec`, `sig_not_dec`), `functional_extensionality_dep`, `classic`, and, where Coq's `R` is used
   as a mathcomp real closed field (`Rinst.v`, choice structure), `Epsilon.epsilon_statement`.
3. The reading of `/repo` by the model's author: every definition cites its lines. The contracts below describe
   external code and are hypotheses of theorems, or arguments, never axioms.

Contracts and simplifications, by area:

* Linear algebra: exact arithmetic; `qr` gives Q orthogonal and P = Q R with R upper triangular; `svd` gives
  K = U diag(s) V^T with orthogonal factors; shapes are enforced by types, so shape errors are not represented there.
* C33: `fisher_information_torch` differentiates through autodiff; the model relates its output to the first and second
  derivatives of the real-valued function log det K (as limits), i.e. autodiff = exact derivative.
* C35/C36: a law is a finite family of paths with rational or real weights; Gaussianity itself is not modelled, only means and
  covariances.
* Reducers and scalers: one column at a time (axis=0).
* `Param`: values are lists of reals; mutation is the returned object.
* Matern: the scaled distance is finite, so `inftobigf` is the identity; `gammaln(n)` for integer n is ln((n-1)!)
  (contract of SciPy/Torch on the values requested).
* `InitModel`: covariance is `maternp_covariance`; `gammaln(d/2+1)` is a constant that plays no role.
* Priors: vectors of equal length (no broadcasting); `inv_cdf` of the standard normal is an argument with
  Phi(inv_cdf p) = p.
* Selection: the optimiser (SciPy `minimize`) is a strategy tree: any finite sequence of criterion evaluations each
  depending on previous values, then an answer. The loader passes a criterion sees are arbitrary epochs.
  Torch's graph release after `backward` is reduced to "a gradient request without an evaluation since then fails".
* SMC: multinomial counts and `brentq` roots are arguments with their contracts (counts sum to n, root in the bracket);
  move proposals arbitrary; exp(-1e100) kept as a positive real; weights as produced by the code (not normalised).
* MH: realised proposals and uniforms are arguments; KS p-values arbitrary; rows of the trace not yet written are
  `None`; Haario covariance needs at least two rows.
* NUTS: vectors are coordinate functions restricted to the first d coordinates; the potential is `None` when it or its
  gradient is not finite (a second test says whether the value alone is); `math.exp` overflows above 1024 ln 2; `int()` is the exact floor on non-negative reals; the
  outcomes of transitions are arguments of the warm-up loop, and the run is shown to be that loop on its own outcomes.
  Gaussian numbers, gradients and the initial step size are arguments of the run; logging and plots are left out.
* Scoring: pointwise (one array entry), scalar thresholds; the bivariate normal cdf is its defining integral.
* Designs: `qmc.scale`, `LatinHypercube`, `discrepancy` through their documented contracts; draws are arguments.
* Diagnosis: `quad` returns the integral, `brentq` a root in the bracket; SciPy's `norm.cdf` is NaN for a non-positive
  scale; `np.interp` for increasing abscissae.
* SVGD: velocities are real (their overflow, which the code replaces by 0, is not modelled); `value_and_grad` is an
  argument; percentile 50 is the median.
* Percentiles: numpy's and torch's linear method as the textbook formula, NaN entries excluded, an array without rows taken to
  raise; gnp.choice without replacement as any list of distinct indices of the requested length.
* Posterior samplers: arrays are numbers, vectors, matrices or "more axes"; box sides are numbers or vectors; uniform
  draws are arguments in [0,1].
* Contracts are shown satisfiable by concrete functions: `mid_quad`, `sup_root` (DiagThms2), `support_draw` (SmcThms),
  `C66_bivariate_cdf_exists` (ScoreThms), `sup_inv_cdf` (ContractThms), `draws_in_range_case` (KnnThms).
* SMC perturbation: the noise drawn by scipy has no component in the null space of its covariance (`draws_in_range`); the
  nearest-neighbour query returns (hnswlib itself may raise).
* Input validation: assert statements are active; `gnp.asarray` keeps shape and entries.

Not modelled anywhere: floating point rounding, the internals of NumPy/Torch/SciPy, autodiff machinery, plotting,
printing, timing, threads.

## Axioms used by each theorem (output of `Print Assumptions`)

* no axioms (closed under the global context): `C01_collate_epoch`, `C01_epoch_drop_last`, `C01_epoch_exactly_once`, `C02_getitem_is_ith_batch`, `C02_getitem_out_of_range`, `C02_len_is_number_of_batches`, `C03_getitem_independent_of_sharding`, `C03_last_row_refuted`, `C03_negative_index_counts_from_first_shard`, `C04_subset_rows`, `C05_counts_fit`, `C05_split_partitions`, `C06_kfold_one_raises`, `C06_kfold_partition`, `C07_torch_kfold_exact_failure_set`, `C106_assign`, `C106_read_back`, `C106_rejected`, `C106_stale_labels`, `C108_bounds`, `C10_finite_iteration_stops`, `C10_infinite_iteration`, `C10_starved_loader_never_yields`, `C111_distinct_names`, `C111_noisy_short`, `C111_paths_partition`, `C111_prefix`, `C112_fisher`, `C112_loo_linear`, `C112_loo_param`, `C112_loo_zero`, `C112_predict`, `C113_believer`, `C113_influence`, `C113_variance`, `C116_loo`, `C116_predict`, `C117_hue_colour`, `C118_labels`, `C119_loo`, `C119_loo_nugget`, `C119_predict`, `C120_loo`, `C120_predict`, `C121_loo`, `C121_noise_loo`, `C121_noise_predict`, `C121_predict`, `C122_loo`, `C122_predict`, `C124_bound`, `C124_equal`, `C124_increment`, `C124_k_inverses`, `C124_monotone`, `C124_zero`, `C125_less`, `C125_scale`, `C125_variances`, `C126_bound`, `C127_fisher`, `C127_loo`, `C127_norm`, `C127_predict`, `C128_data`, `C128_mean`, `C128_sd`, `C129_accepted`, `C12_set_by_name`, `C12_set_by_path`, `C12_set_by_path_wrong_count`, `C130_stairs`, `C132_loo`, `C132_predict`, `C133_backends`, `C133_cho`, `C133_inverse`, `C133_logdet`, `C133_numpy`, `C133_torch`, `C133_wrong`, `C136_abandoned`, `C136_epochs`, `C136_fresh`, `C136_mh`, `C136_repeats`, `C136_reset`, `C136_same_order`, `C136_seeded`, `C136_shared`, `C136_unaffected`, `C137_choice`, `C137_mean`, `C138_condition`, `C138_contrasts`, `C138_pair`, `C139_inf`, `C139_isscalar`, `C139_nan_to_num`, `C13_concat_entries`, `C13_concat_then_slice`, `C13_get_by_path`, `C13_getitem`, `C13_indices`, `C13_path_match`, `C13_select_from_concat`, `C13_views`, `C140_split`, `C140_split_int`, `C143_letters`, `C143_meshgrid`, `C143_names`, `C143_resolve`, `C144_bases`, `C144_factors`, `C15_cell`, `C15_row_or_column`, `C15_set_cell`, `C15_slice_labels`, `C15_slice_positions_in_range`, `C16_cache_transparent`, `C16_kernel_reads_in_table`, `C16_negative_order_refuted`, `C17_always_legal`, `C17_environment_agrees`, `C17_failed_update`, `C17_failed_update_not_atomic`, `C17_get_backend_stable`, `C17_set_backend`, `C17_set_backend_none`, `C17_set_dtype`, `C17_update_raises_iff`, `C17_update_sets_exactly`, `C19_zero_mean_blup`, `C19_zero_mean_not_pd_raises`, `C20_linear_covariance_zero`, `C20_linear_mean_interpolates`, `C20_parameterized_mean_interpolates`, `C20_zero_mean_covariance_zero`, `C20_zero_mean_interpolates`, `C21_linear_at_least_zero_mean`, `C21_linear_posterior`, `C21_more_observations`, `C21_zero_mean_posterior`, `C22_main_branch_used`, `C22_nonsingular_when_cpd`, `C22_universal_kriging_blup`, `C23_gls_exists`, `C23_gls_plus_residual_kriging`, `C23_trend_equivariance`, `C24_basis_change_invariance`, `C24_intrinsic_invariance`, `C25_fallback_defect`, `C25_fallback_never_rescues`, `C25_fallback_wrong_refuted`, `C25_scipy_fallback_biased_refuted`, `C26_predict_outputs`, `C27_copy_really_differs`, `C27_copy_smooths`, `C27_copy_variance_in_range`, `C27_same_object_reproduces_data`, `C28_loo_parameterized_mean`, `C28_loo_vs_refit`, `C28_loo_zero_mean`, `C29_cpd_spd_agree`, `C29_loo_linear_cpd`, `C29_loo_linear_spd`, `C32_fisher_cpd_basis_free`, `C32_fisher_cpd_psd`, `C32_fisher_exact_to_degree_four`, `C32_fisher_finite_differences`, `C32_fisher_psd`, `C32_fisher_singular_raises`, `C34_exact_to_degree_four`, `C34_finite_difference_order`, `C35_agreeing_path_unchanged`, `C35_conditioned_law_linear_mean`, `C35_conditioned_law_zero_mean`, `C35_interpolates`, `C35_interpolates_linear`, `C35_interpolates_parameterized`, `C35_parameterized_mean`, `C36_cholesky_factor`, `C36_cholesky_succeeds_iff`, `C36_paths_covariance`, `C36_svd_factor`, `C44_select`, `C44_update`, `C46_user_bounds_kept`, `C47_order_fixed_loader`, `C63_windows_partition`, `C63_windows_tile`, `C72_zero_steps`, `C73_append_after_concat`, `C73_append_col`, `C73_append_col_cells`, `C73_append_row`, `C73_append_row_after_concat`, `C73_concat_cols`, `C73_concat_rows`, `C76_array_gradient`, `C76_array_gradient_before_evaluation`, `C76_history`, `C98_affine`, `C98_all_neighbours`, `C98_classical`, `C98_collapsed`, `C98_defined`, `C98_psd`, `C98_quadratic_form`, `C98_recovery`, `C98_scale`, `C98_single_particle`, `C99_ensure`, `C99_idempotent`, `C99_lengths_not_compared_refuted`, `C99_lists_refuted`, `C99_mean`, `C99_missing_meanparam_refuted`, `C99_partial_arrays_ignored`, `C99_prepare`, `C99_source`
* `ClassicalDedekindReals.sig_forall_dec`: `C111_default_names_collide_refuted`, `C129_default`, `C130_plot`, `C87_freeze`
* `ClassicalDedekindReals.sig_forall_dec`, `FunctionalExtensionality.functional_extensionality_dep`: `C08_mean_of_concatenation`, `C08_min_max_of_concatenation`, `C08_min_max_raise_iff`, `C08_variance_of_concatenation`, `C08_variance_one_row_is_nan`, `C09_reduce_mean_drop_last`, `C09_reduce_mean_is_row_mean`, `C09_weights`, `C102_numpy_gradient`, `C102_options`, `C104_failure`, `C105_counts`, `C105_order_free`, `C105_range`, `C105_robust`, `C105_sampled`, `C105_units`, `C105_value`, `C110_accepted`, `C110_refused`, `C110_split`, `C110_update_guess`, `C114_error_reached`, `C114_floats`, `C114_integers`, `C114_views`, `C117_integer_inputs`, `C117_max_anchor`, `C117_min_anchor`, `C117_min_anchor_nan_refuted`, `C118_box_column_refuted`, `C118_pit_ecdf`, `C118_reference`, `C118_sections`, `C118_succeeds`, `C118_titles`, `C11_minmax_attains_ends`, `C11_minmax_constant_column`, `C11_minmax_unit_interval`, `C11_scalers_invert`, `C11_scalers_monotone`, `C129_variances`, `C130_ends`, `C130_normal`, `C130_recorded`, `C130_restart`, `C130_step`, `C130_subset`, `C139_asint`, `C139_asint_type`, `C139_bridge`, `C139_flags`, `C139_sharing`, `C139_values`, `C140_axis`, `C140_clip`, `C140_cov`, `C140_extremes`, `C141_calls`, `C141_fisher`, `C141_matrix`, `C142_average`, `C142_curves`, `C142_nuts`, `C143_asarray`, `C143_full`, `C143_unsigned`, `C18_accepts_iff`, `C18_failed_call`, `C18_from_kwargs`, `C18_history_valid`, `C18_nan`, `C42_length_scales_penalised`, `C42_slope_above_cutoff`, `C42_unbounded_above`, `C43_smallest_gap`, `C45_best_returned`, `C45_flag`, `C45_history_complete`, `C45_model_improved`, `C45_nan_kept`, `C45_raises`, `C46_contains_start`, `C47_cycles`, `C47_empty_loader`, `C47_failed_evaluation`, `C47_full_pass`, `C47_not_a_function`, `C47_whole_passes`, `C48_refusals`, `C48_resample`, `C48_residual_unbiased`, `C49_ess`, `C49_scale_invariant`, `C58_group_contains_chain`, `C59_first_rate_and_shift`, `C59_rates_range`, `C59_sliding_rates`, `C61_composition_of_shears`, `C61_leapfrog_reversible`, `C61_modified_energy`, `C63_default_policy`, `C64_welford`, `C65_bounds`, `C65_search_needs_base`, `C65_search_terminates`, `C68_box_and_distinct`, `C68_errors`, `C68_grid`, `C76_batch_gradient`, `C76_batch_gradient_stale`, `C78_no_error`, `C78_stuck_particles_raise`, `C78_tuning`, `C79_ks_fraction`, `C79_ks_never_ok`, `C81_law_unique`, `C82_stability_limit`, `C84_low_discrepancy`, `C84_scale`, `C87_odd_grid_has_optimum`, `C88_no_score_near_a_face`, `C88_score_inside`, `C89_box`, `C89_column_layout_refuted`, `C89_criterion`, `C89_raises`, `C89_random_start`, `C89_shape`, `C89_starting_points`, `C89_vector_is_one_point`, `C91_array_density`, `C91_exceptions`
* `ClassicalDedekindReals.sig_forall_dec`, `ClassicalDedekindReals.sig_not_dec`, `FunctionalExtensionality.functional_extensionality_dep`: `C105_std`, `C108_default`, `C108_parameters`, `C111_by_name`, `C111_default_names`, `C111_hidden_update`, `C111_noisy_layout`, `C111_to_dict`, `C117_bad_index`, `C117_bad_index_raises`, `C117_coverage`, `C117_default_bands`, `C117_defaults`, `C117_label_refuted`, `C117_nested`, `C117_no_labels`, `C117_own_labels`, `C117_polygon`, `C117_rejected`, `C117_scheme_errors`, `C117_sections`, `C117_single_band`, `C117_sweep_range`, `C117_through_anchor`, `C117_too_many_levels`, `C11_normalizer_standardises`, `C129_haario`, `C129_history`, `C129_restart`, `C129_robbins_monro`, `C129_rows`, `C129_runs`, `C129_stack`, `C134_burnin`, `C134_check`, `C134_close`, `C134_copies`, `C134_negative`, `C134_order`, `C134_rows`, `C134_verdict`, `C135_raises`, `C137_pit`, `C142_loo`, `C14_anisotropic`, `C14_check_bounds`, `C14_false_alarm_refuted`, `C14_missed_violation_refuted`, `C50_weights_telescope`, `C52_level_correct`, `C52_loops_on_zero_density`, `C52_loops_when_no_level_is_close`, `C56_schedule`, `C60_affine_invariance`, `C60_constant_chains`, `C60_lower_bound`, `C60_verdict`, `C62_stopped_subtree`, `C62_transition`, `C62_tree_counts`, `C62_tree_proposal`, `C69_degenerate`, `C69_never_larger`, `C69_smallest_distance`, `C69_underestimates`, `C71_grid_coherent`, `C71_grid_raises`, `C71_grid_shift`, `C71_grid_values`, `C71_quadrature_not_shift_invariant`, `C72_repulsion_cancels`, `C81_divergence_test_asymmetric`, `C81_reversible_on_slice`, `C84_latin`, `C84_maximin`, `C84_mindist`, `C84_not_maximin_in_box`, `C84_raises`, `C85_describe`, `C85_range_over_rho`, `C86_column_targets`, `C87_even_grid_misses_optimum`, `C87_rows`, `C94_twobumps_quasi_periodic`, `C94_wave`
* `ClassicalDedekindReals.sig_forall_dec`, `Epsilon.epsilon_statement`, `FunctionalExtensionality.functional_extensionality_dep`: `C109_groups`, `C109_jitter`, `C109_pooled`, `C109_rates`, `C109_rates_raises`
* `ClassicalDedekindReals.sig_forall_dec`, `ClassicalDedekindReals.sig_not_dec`, `Classical_Prop.classic`, `FunctionalExtensionality.functional_extensionality_dep`: `C101_depth_zero`, `C101_finite_start`, `C101_no_chains`, `C101_no_overflow`, `C101_steps_and_masses`, `C101_stuck`, `C101_transitions`, `C102_numpy_faces`, `C102_samples`, `C107_caller`, `C107_caller_list`, `C107_copies`, `C107_copy_types`, `C107_detached`, `C107_in_place`, `C107_integer`, `C107_values_setter`, `C107_views`, `C111_dict_round_trip`, `C114_error`, `C118_levels`, `C118_nan_is_best`, `C118_profile`, `C118_same_index`, `C118_window`, `C123_dictionary`, `C123_nan`, `C123_number`, `C123_order`, `C123_param`, `C123_param_showable`, `C123_places`, `C123_showable`, `C123_table`, `C123_unnormalised`, `C12_scales_inverse`, `C12_set_denormalized_mismatch`, `C12_set_denormalized_same`, `C12_set_denormalized_values`, `C12_set_from_unnormalized`, `C12_set_from_unnormalized_not_atomic`, `C135_flat`, `C135_symmetric`, `C135_values`, `C137_density`, `C137_logcdf`, `C143_linspace`, `C37_bounds`, `C37_closed_form`, `C37_exponential`, `C37_matern32`, `C37_one_at_zero`, `C37_strictly_decreasing`, `C41_barrier`, `C41_infinite_at_both_ends`, `C41_log_prior_mode`, `C41_log_prior_support`, `C41_minimum`, `C41_monotone`, `C41_raises`, `C41_sign`, `C43_constant_coordinate_nan`, `C43_cutoff`, `C43_default_raises_iff`, `C43_three_points_raise`, `C43_two_points_raise`, `C44_prior_arguments`, `C46_empirical_layout`, `C46_empirical_length`, `C46_empirical_variance`, `C50_cache_consistent`, `C50_move_rule`, `C50_step_consistent`, `C51_first_stage`, `C51_later_stage`, `C51_sure_event_gives_inverse_volume`, `C52_continuous_terminates`, `C52_loops_for_a_step_family`, `C53_acceptance_probability`, `C53_asymmetric_proposal_refuted`, `C53_detailed_balance`, `C53_nonsymmetric_correction_zero`, `C53_target_invariant`, `C54_absorbing`, `C54_decision`, `C54_support`, `C54_trace`, `C55_box`, `C56_gain_sign`, `C57_no_stop_at_first_check`, `C57_returned_samples`, `C57_single_chain_raises`, `C57_unvisited_rows`, `C58_rm_scales_positive`, `C61_velocity`, `C61_volume_preserving`, `C62_nonfinite_start`, `C62_transition_finite`, `C62_uturn`, `C65_averaged_step`, `C65_dual_averaging`, `C65_no_overflow`, `C65_overflow_possible`, `C65_steps_and_masses`, `C66_additive`, `C66_bounds`, `C66_improper_integrals`, `C66_normal_law`, `C66_truncated_integral`, `C66_wrong_infinity`, `C67_growth`, `C67_invariances`, `C67_minimum`, `C70_consistency`, `C70_constant_targets`, `C70_reference_predictors`, `C70_units`, `C70_values`, `C71_quadrature_quantile`, `C71_quadrature_small_shift`, `C71_quadrature_values`, `C72_dead_forever`, `C72_dead_particles_stay`, `C72_flat_target_keeps_centre`, `C72_kernel`, `C72_median_bandwidth`, `C72_preconditioner`, `C72_run`, `C72_single_particle`, `C72_single_temperature`, `C72_stein_direction`, `C72_step_accepts`, `C72_step_shape_and_box`, `C72_temperature_raises`, `C72_temperature_schedule`, `C75_coverage`, `C75_log_density`, `C75_raises`, `C77_ess_path_monotone`, `C77_p0_path_monotone`, `C77_restart_ends_at_target`, `C77_run_consistent`, `C80_log_target_values`, `C82_mass_before`, `C82_mass_is_variance`, `C83_expected_improvement`, `C83_shape`, `C83_two_draws`, `C85_delta_over_sigma`, `C85_not_unit_free`, `C86_pit_monotone`, `C86_pit_values`, `C88_lone_particle_sticks`, `C90_failing_criterion`, `C90_raises`, `C90_samples`, `C91_equal_temperatures`, `C91_outside_returned`, `C91_particles_in_box`, `C92_collapsed`, `C92_explicit_options_drop_the_box_refuted`, `C92_in_box`, `C92_random_init_ignored`, `C92_shape`, `C93_global_minimum`, `C93_three_minimisers`, `C94_detpep8d_misses_terms`, `C94_hartmann4_documented_minimum_refuted`, `C94_hartmann6_documented_minimum`, `C94_hartmann_range`, `C95_main_effects`, `C95_variance`, `C96_extremes`, `C96_flow_over_resistance`, `C96_monotone`, `C97_outside`, `C97_value`, `inv_cdf_contract_holds`
* `ClassicalDedekindReals.sig_forall_dec`, `ClassicalDedekindReals.sig_not_dec`, `Epsilon.epsilon_statement`, `FunctionalExtensionality.functional_extensionality_dep`: `C104_repeated`, `C109_recompute`, `C33_exact_information`, `C58_haario_covariance_valid`
* `ClassicalDedekindReals.sig_forall_dec`, `ClassicalDedekindReals.sig_not_dec`, `Classical_Prop.classic`, `Epsilon.epsilon_statement`, `FunctionalExtensionality.functional_extensionality_dep`: `C100_bound`, `C100_constant_mean`, `C100_linear_mean`, `C100_one_batch`, `C100_raises`, `C100_single_observations`, `C100_zero_mean`, `C103_converges`, `C103_decrease`, `C103_decrease_map`, `C103_fixed_point`, `C103_given_anchor`, `C103_start`, `C104_equal_batches`, `C104_restricted_likelihood`, `C104_value`, `C109_adapted`, `C109_jitter_pd`, `C110_equivariance`, `C110_guess_constant`, `C110_guess_linear`, `C110_joint`, `C110_reml`, `C112_nll`, `C112_reml`, `C115_loo`, `C115_predict`, `C115_sequence`, `C116_criterion`, `C116_guess_constant`, `C116_guess_linear`, `C116_guess_zero`, `C116_matern`, `C116_matern_covariance`, `C116_minimisers`, `C116_remap`, `C116_remap_logsigma2`, `C119_criterion`, `C119_estimates`, `C119_noise_refuted`, `C120_criterion`, `C120_selection`, `C122_criterion`, `C126_matern`, `C127_criterion`, `C128_matern`, `C131_fisher`, `C131_flat`, `C131_long`, `C131_moved`, `C131_removed`, `C131_short`, `C132_axis`, `C132_exchange`, `C132_reflection`, `C138_repeated`, `C138_variance`, `C30_nll_centred`, `C30_nll_chain_rule`, `C30_nll_not_positive_definite`, `C30_nll_value`, `C31_basis_invariance`, `C31_closed_form`, `C31_failure`, `C31_intrinsic_invariance`, `C31_trend_invariance`, `C33_finite_difference_variant`, `C33_torch_variant_negative`, `C33_torch_variant_zero`, `C38_backends_agree`, `C38_cross`, `C38_diagonal`, `C38_nugget_only_on_diagonal`, `C38_pairwise_is_diagonal`, `C38_symmetric`, `C39_joint`, `C39_likelihood_finite`, `C39_positive_definite`, `C39_positive_semidefinite`, `C39_universal_kriging`, `C39_zero_mean_kriging`, `C40_change_of_units`, `C40_coordinate_order`, `C40_linear_in_sigma2`, `C40_translation`, `C42_criterion_bounded_below`, `C42_criterion_unbounded_below`, `C74_constant_mean`, `C74_length_scales`, `C74_length_scales_linear_mean`, `C74_linear_mean_restricted_likelihood`, `C74_zero_mean_maximum_likelihood`, `C97_failure`, `C97_jeffreys`, `C97_jeffreys_no_minimum`, `C97_logrho`, `C97_logsigma2`, `C97_map`

## Mutation tests

`seeded/LOG.jsonl` has one line per edited definition. Runs use a frozen checkout of the commit named in the line; a
comment-only edit is the control and breaks nothing. "failed" means that the proof of the theorem, or of a lemma it uses,
no longer goes through after the edit. It does not show that the statement became false: a script can also break for
syntactic reasons. Lines without a commit are first-pass survivors and edits that did not typecheck. The first pass was run
on a tree that was being edited; unfinished edits can only add failures, so its survivors are kept and its other results
were dropped and run again.
