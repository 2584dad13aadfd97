# Formal model of CatLearn in Rocq (Coq 8.16.1)

Source: `/repo` (SUNCAT-Center/CatLearn, Python), read as text only.
Properties: `properties.jsonl` (C01 ...). Claims: `MANIFEST.json`.
Mutation log: `seeded/LOG.jsonl`.

## 1. Trusted base

* Coq 8.16.1 kernel (and `coqchk`), the OCaml runtime it runs on.
* Axioms: none of our own. Combinatorial files (lists, `nat`, `Z`, `Q`,
  mathcomp matrices) are closed under the global context. Files about real
  analysis import `Reals` (and `Coquelicot`, which adds no axioms), hence rest
  on the standard library's `ClassicalDedekindReals.sig_forall_dec`,
  `ClassicalDedekindReals.sig_not_dec`,
  `FunctionalExtensionality.functional_extensionality_dep` and, for some
  Coquelicot lemmas, `Classical_Prop.classic` /
  `Coq.Logic.ClassicalEpsilon`-type axioms. Each `*Properties.v` file ends with
  `Print Assumptions` for each theorem; section 5 lists the outcome.
* Our reading of the Python source and of numpy / sqlite / ase / multiprocessing
  behaviour (the modelling conventions below). There is no extraction and no
  mechanical link from Python to Gallina: each definition cites the file and
  lines it transcribes.

## 2. Modelling conventions

* Numbers: floating point is replaced by exact numbers: `Z`/`Q` where a
  computable witness is useful, `R` for analytic kernels, an arbitrary field
  for matrix identities, or an arbitrary type with a total preorder where only
  comparisons matter (floats without NaN are such an order). Rounding errors,
  overflow and NaN are outside the model.
* Randomness: every random draw is an explicit argument (a permutation for
  `np.random.shuffle`, a list of draws for `rand`), and theorems quantify over
  all of them. For shuffles the hypothesis is `Permutation`.
* Parallelism: `imap_unordered` is modelled as delivering the (index, result)
  pairs in an arbitrary permutation; theorems quantify over it. `Pool.map` is
  `map`.
* Files/databases: a finite map or table value; a crash is a prefix of the
  sequence of atomic steps (granularity stated in each file).
* Exceptions: `Base.result` (`Ok`/`Err`); Python loops are structural
  recursions or carry fuel together with a theorem that the fuel suffices.
* External calls (user prediction function, fitness function, acquisition
  function, scipy optimizers, ase) are universally quantified functions.
* Aliasing: where in-place mutation is visible to the caller, the model returns
  the new value of the argument explicitly.

Layout of `rocq/theories`: `Base*.v` helpers, and for each area
`<Area>Model.v` (transcription, no proofs), `<Area>Spec.v` (independent
specification, when it needs definitions of its own), `<Area>Proofs.v`,
`<Area>Properties.v` (theorem statements that MANIFEST points to, each followed
by an `Example` showing that the hypotheses are met by a concrete case, and
`Print Assumptions`).

When the faithful model violates a property, we prove a theorem
`..._refuted` exhibiting inputs for which the modelled code breaks it, and
prove the strongest part that does hold (`..._partial` or a version with the
needed hypothesis); such claims have status `partial` in the manifest, with the
reason.

## 3. Plan per property

| id | model | proof |
|----|-------|-------|
| C01, C02 | `k_fold` on row lists (features row + target), shuffle = permutation, `np.array_split` | arithmetic on div/mod, concat/Permutation |
| C03, C04 | `split_index` with a dictionary of (level, number) lists, per-node shuffles, early return | loop invariant over levels: complete level = permutation of the selection; termination bound 2^q*m > n; C04 refuted for min_split < n < 2*min_split |
| C05 | `split_predict` double loop over keys | level partition gives disjointness; count of ordered pairs |
| C06 | `_compile_split` chunking loop | refuted at multiples of 999; proved otherwise |
| C07-C10 | GA `search` loop as fold over a list of arbitrary offspring lists; `population_reduction`, `remove_duplicates` | invariant (forall2 pairing), stable sort lemmas |
| C11 | argsort + arbitrary completion order | permutation inverse lemma |
| C12-C14 | operators with explicit draws | list lemmas; dmax refuted by witness |
| C15 | probability assignment of `_selection` | refuted: assigned probability strictly decreases with fitness |
| C16, C17 | `_pareto_transform`/`_locate_pareto` over vectors with -inf | layer peeling invariant; -inf rows refuted |
| C18 | Convergence counters as a state machine | induction over call history |
| C19-C21 | greedy elimination rounds, save file, resume | round function iterated; crash = prefix; schedule = permutation |
| C22 | metadata bookkeeping | refuted by witness |
| C23 | column perturbation | matrix column lemmas |
| C24-C26 | active learning loop | partition invariant; aliasing refuted |
| C27 | acquisition functions on R | monotonicity; UCB `max` refuted |
| C28-C30 | table models of the SQLite classes | refinement to finite map by induction on histories; row order refuted |
| C31, C32, C35 | scaling statistics over R | algebra of sums |
| C33, C34 | column masks; median filter | list lemmas; `dev` ignored refuted |
| C36, C37 | engineered features and labels | index bijections; enumeration of exponents |
| C38, C39, C40 | index bookkeeping of pca / screening / holdout | refuted by witness plus the part that holds |
| C41 | kernel list <-> flat list | induction over kernel list; refuted for multi-hyperparameter kernels |
| C42 | kernel expressions over R | PSD closure (sum, Schur product, limits, feature maps) |
| C43, C44 | GP linear algebra | Schur complement over R^n; permutation similarity |
| C45 | kernel gradients | Coquelicot derivatives |
| C46 | GP object state machine | refuted by witness plus consistency part |
| C47 | likelihood gradient | matrix calculus where feasible; noise component refuted |
| C48 | hdf5 keys in lexicographic order | decimal strings; sorted up to 10, refuted at 11 |
| C49 | ridge via SVD | convexity identity; stale cache refuted |
| C50 | residual statistics over R | Cauchy-Schwarz |
| C51 | potentials | Coquelicot `auto_derive` |
| C52 | masks | list lemmas |
| C53-C55 | MLMin/MLNEB loops with oracle surrogate and calculator | invariants; n_images = 3 refuted |
| C56 | learning curve | refuted plus part |
| C415 | gp_init, predict, predict_with_uncertainty, prepare_kernels, get_covariance | each kernel is prepared independently of its place; sums of permuted lists; equal covariances give equal models (as C376) |
| C57-C59, C64 | list and real models of the utilities | as titled |
| C60, C61, C63, C145, C156-C158 | fingerprints over a structure = atomic numbers + distance/connectivity functions | counting lemmas; invariance under permutations of atoms |
| C62, C144, C146-C148 | `FeatureGenerator` with arbitrary fingerprint functions | Forall2 alignment; schedules = permutations |
| C65, C88-C93 | screening loops with arbitrary correlation and regression | partition invariants; termination measure |
| C66-C68 | GA search with -inf fitness, cross-validation, masks | loop invariants; witnesses |
| C69, C70 | greedy elimination: list results, crash points of the save file | case analysis over prefixes of steps |
| C71, C72 | acquisition functions | witnesses and what holds |
| C73-C77 | SQLite tables with transactions | crash = prefix; committed state refinement |
| C78-C80 | cleaning and general preprocessing | column-mask lemmas |
| C81, C83, C85 | aliasing and division by zero | explicit output state of the argument |
| C82, C84, C86, C87 | engineered features over R | positivity, index bijections, sum of singular values |
| C94-C102 | kernel dictionaries: setup, scaling, flattening, evaluation | induction over kernel lists; algebra over R |
| C103-C111, C116 | GaussianProcess object: init, predict, update, scaling, fixed basis | linear algebra over lists of reals, positive definiteness, Schur complements |
| C112-C114 | errors and losses | order statistics, inequalities |
| C115, C119-C121 | hyperparameter optimisation with an arbitrary optimiser; likelihood and its gradient | matrix derivatives (Jacobi's formula for log det) |
| C117, C118 | covariance with gradient blocks | Gaussian kernel as a limit of features; Schur products; derivative kernels |
| C122-C124 | ridge regression by SVD | Sherman-Morrison; induction over the regularization search |
| C125, C131-C133 | potentials, force norms, paths | Coquelicot; real inequalities |
| C126-C130 | MLMin / MLNEB constructors and bookkeeping | witnesses; loop invariants |
| C134-C141 | learning curves, hierarchy averages, lasso selection | schedules = permutations; interval bisection with fuel |
| C142, C143 | networkx and CatMAP conversion | injectivity of strings; graph/matrix round trips |
| C149-C155 | periodic table data with an arbitrary table | list lemmas; witnesses |
| C151, C152, C162 | property fingerprints as statistics of a group | sums over index lists |
| C159-C161, C163, C164 | graph, molecule, particle fingerprints | invariance under permutations; witnesses |
| C165-C175 | adsorbate fingerprints from a connectivity matrix and groups | counting bonds, double sums |
| C176-C178 | formal charges over R or Q | conservation by symmetry of bonds; witness for stale loop variable |
| C179-C188 | adsorbate identification, groups of atoms, terminations | case analysis over the sources of information; partition lemmas |
| C189-C193 | neighbour matrices | Archimedean argument for shells; sums over permutations |
| C194-C205 | genetic feature selection with in-place changes of shared lists (heap of lists) | invariants over generations for arbitrary random draws; concrete runs as witnesses |
| C206-C211 | slab utilities; k-means as an arbitrary oracle, sets as arbitrary orders | partition lemmas, case analysis over element tables |
| C212-C234 | site featurizer: materials, tables with missing values, caches, selections | induction over rows and files; concrete and universally quantified witnesses for defects |
| C235-C245 | clustering, Sammon error, pair distributions, correlation with targets; k-means as an arbitrary oracle | invariants of grouping; partition of the range into bins; Cauchy-Schwarz |
| C246-C253 | files of splits and searches, tables of features (on top of the database model) | round trips; two-step file writes for interruptions |
| C254-C261 | sensitivity analysis, general Gaussian process; minimizer, inverse and Cholesky as oracles | loop invariant over the steps; explicit form of processed data; reuse of the posterior mean theorem |
| C262-C267 | bootstrap estimate and search of ridge regression; samples and decomposition as parameters | reuse of the ridge minimiser theorem per sample; invariant of the search over all values tried |
| C268-C280 | conversion of structures, evaluation of points, settings of the surrogate, results, report and path files of ML-NEB | list algebra; invariant of the table over all histories of calls; files as lists |
| C281-C287 | learning curves with selected features, refinement of the penalty; regression, columns and selection as parameters | simulation by the curve without selection; induction over the subsets; grid arithmetic |
| C288-C302 | records of the genetic selection, data attached to structures, neighbour lists and graphs from ASE, particle vectors | histories of operations; counting of periodic images; independent specification of bonds |
| C303-C314 | feature selection by regression coefficients, CatApp fingerprint, adsorbate atoms from a reference slab; fits, element data and distances as parameters | induction over the grid of penalties; sorting and counting; refutation by concrete structures |
| C315-C323 | fitness functions of the genetic algorithm; kernels sqe, scaled_sqe, AA and the scaling of hyperparameters | reduction to the posterior mean on standardised data, invariance of z-scores; Matern-1/2 kernel as a mixture of Gaussians for positive semidefiniteness |
| C324-C335 | geometry hash with wrapping, float texts and digest as parameters; input tables and results of Magpie with the temporary directory as state | uniqueness of sorted permutations; injectivity of texts; joins on ids for every output of the external program |
| C336-C344 | rows of an ASE database and features that repeat stored data; adsorbate elements; files written for sites, reference folders, saved tables and EMT stabilities | decoding of paths and of decimal texts; folds over files with the file system as state; sums over permutations |
| C345-C349 | sizes and steps of screening with n / log n rounded to even; projections over an estimator parameter; composition names over an arbitrary set order | bounds on logarithms; unique decoding of letters and digits |
| C350 | default length scales of a kernel: one for all features or one per feature | definition of the population standard deviation; case analysis on the option |
| C351-C359 | iterative screening composed with its linear models (coefficients as oracles); convoluted fingerprints and bulk features over a table of elements, names as literal lists | induction on rounds of fits; columns of a table as values of properties; comparison of literal lists of names |
| C360-C361 | covariance matrices with noise_multi and constant_multi kernels | entries of the matrices; quadratic form of two blocks |
| C362-C364 | kernel lists as numbered mutable objects shared by models | frame property by induction on histories; idempotence of the kernel set-up; one-point models computed exactly |
| C365-C369 | the surrogate of MLMin.run: kernel set-up, fit and optimisation of every pass; optimiser with its success flag as an oracle | positive definiteness from the noise kernel; invariant over passes against a pass-by-pass specification; computed counterexamples |
| C370-C374 | the surrogate of ML-NEB as a Gaussian process and the calculator that predicts with it | exact covariances with new structures; the mean as a finite sum of gaussians and derivatives; bounds of these at a distance; mean value theorem |
| C375 | the loop of a genetic search with its convergence object | answers of the check along the trace related to a history specification |
| C376-C379 | covariance of two points as a closed formula of the kernel list; models trained on transformed rows | formula of each kernel from the model, then uniqueness of the inverse and of the Cholesky log-determinant for models whose covariances agree |
| C380-C381 | RidgeRegression.RR on fresh objects | from the unique minimiser of the penalised cost |
| C382-C383 | test and training blocks of every kernel; rank | joint covariance by induction over the kernel list; extremum of a fold |
| C384 | EI, PI, probability_density with the normal density | the Gaussian integral by differentiation under the integral sign; antiderivatives and limits of the improvements |
| C385 | detect_adsorbate, connectivity2ads_index, formula2ads_index | counts per element; the list of own atoms is shorter than the formula; membership in the sorted set |
| C386 | gp_init, predict, get_covariance | bilinear form on combinations of covariances; completing the square; a combination without roughness vanishes |
| C387 | RR, predict_rows, gp_init, predict, linear_kernel | the weights of the process give a solution of the normal equations, which is unique |
| C388 | gp_init, predict, predict_with_uncertainty, variance | expected error as a quadratic form in the weights; completing the square with the inverse covariance |
| C389 | gp_init, predict | the old weights followed by zeros solve the extended system, whose solution is unique |
| C390 | gp_init, predict, predict_with_uncertainty | the best trade-offs for two noise values compared with each other and with the zero function; least expected errors grow with the noise |
| C391 | gp_init, predict | targets = fit + noise times weights; the cross term is a nonnegative quadratic form |
| C392 | gp_init, predict, predict_with_uncertainty | Cauchy-Schwarz for the bilinear form on combinations, applied to the difference of evaluating and predicting |
| C393 | gp_init, predict, predict_with_uncertainty | Cauchy-Schwarz and the triangle inequality for that form; the norm of the prediction is bounded by the trade-off of the zero function |
| C394 | gp_init, predict, predict_with_uncertainty | the weights divided by m and repeated solve the larger system, whose solution is unique |
| C395 | site_features, normalized_site_features, with_norm | cases on the two stored tables |
| C396 | log_entry, nanmean, log_error | logarithm rules and ln x <= x - 1 |
| C397 | log_entry, nanmean, log_error | refuted; the average runs over the samples with a target above -1 |
| C398 | target_standardize, target_normalize, target_center | mean and variance of shifted and divided lists |
| C399 | read_sites, traj_to_sites, get_site_index | cases on the sites there are; the index by C223 |
| C400 | gp_init, predict, predict_with_uncertainty | the bordered system is solved by the two solutions of the smaller one; its pivot is v^2 + noise |
| C401 | gp_init (g_lml), predict, predict_with_uncertainty | Cholesky factor of the bordered matrix: leading block and last entry; induction over the history |
| C402 | process, clean_index, fl_scale | explicit form of processed columns; affine maps of mean and standard deviation |
| C403 | separate_list | numbers below 2^n and their binary digits are in bijection; induction on the list |
| C404 | gp_init, predict, predict_with_uncertainty | C400 for the observation moved to the end, which changes nothing by C44 |
| C405 | gp_init, predict, predict_with_uncertainty, gaussian_kernel | sums bounded by the largest covariance, which is at most exp(-d^2/2) |
| C406 | gp_init, predict, predict_with_uncertainty, scale_train | C405 for the standardized data, carried back by C106 |
| C407 | gp_init, predict, predict_with_uncertainty | the equations of the copies of a point added up; uncertainties by C394 and C109 |
| C408 | gp_init, predict, predict_with_uncertainty, get_covariance | the inverse of a multiple is the inverse divided by the factor; closed form of the covariance |
| C409 | gp_init, predict, predict_with_uncertainty, prepare_kernels, get_covariance | prepared kernels read the same numbers; equal covariances give equal models (as C376) |
| C410 | gp_init, predict, predict_with_uncertainty, constant_kernel | the equations of all observations added up |
| C411 | images_from_distance | bounds of the integer part |
| C412 | mlneb_init, mlneb_run, mlneb_step, extra_point | size check of the constructor; induction over the iterations |
| C413 | gp_init, init_bounds, prepare_kernels, update_gp | the bounds pass through preparation and the data update unchanged |
| C414 | gp_init, predict, predict_with_uncertainty, get_covariance, gaussian_kernel | closed form of the covariance; equal covariances give equal models (as C376) |
| C415 | gp_init, predict, predict_with_uncertainty, prepare_kernels, get_covariance | each kernel is prepared independently of its place; sums and products of permuted lists; equal covariances give equal models (as C376) |
| C416 | gp_init, predict, predict_with_uncertainty, prepare_kernels, get_covariance, constant_kernel | closed form of the covariance; equal covariances give equal models (as C376) |

### 3.1 Outcome per property

Status and the files that hold the theorems named in `MANIFEST.json`. "refuted" means that
the faithful model violates the property as stated: a `_refuted` theorem shows how, and the
other theorems of the claim state what does hold.

| id | property | status | theorems in |
|----|----------|--------|-------------|
| C01 | k_fold is an exact, balanced partition with rows and targets kept together | proved | CVProperties |
| C02 | k_fold with fix_size gives equal, non-overlapping folds or refuses | proved | CVProperties |
| C03 | Every level of the hierarchy split is a partition of the selected indices | proved | CVProperties |
| C04 | Hierarchy split always produces a result for the inputs it accepts | partial (refuted) | CVProperties |
| C05 | Hierarchical prediction never evaluates on training data and visits every ordered pair of a level once | proved | CVProperties |
| C06 | Fetching a subset from the database returns every requested row whatever its size | partial (refuted) | CVProperties |
| C07 | Genetic algorithm keeps population and fitness paired through every generation | proved | GAProperties |
| C08 | Best fitness of the genetic algorithm never decreases | partial (refuted) | GAProperties |
| C09 | Natural selection keeps the population at its nominal size and keeps exactly the fittest | proved | GAProperties |
| C10 | Duplicate removal leaves one representative per distinct (rounded) fitness | proved | GAProperties |
| C11 | Parallel fitness evaluation equals serial evaluation for every completion order | proved | GAProperties |
| C12 | Genetic operators preserve the genome | proved | GAProperties |
| C13 | Candidates respect the maximum number of active features | partial (refuted) | GAProperties |
| C14 | Initial population is well formed | partial (refuted) | GAProperties |
| C15 | Fitter candidates are more likely to be selected as parents | partial (refuted) | GAProperties |
| C16 | Pareto ranking orders candidates consistently with domination | proved | GAProperties |
| C17 | Candidates whose fitness evaluation failed are never ranked best | partial (refuted) | GAProperties |
| C18 | The default convergence check stops exactly after the promised number of stagnant generations | proved | GAProperties |
| C66 | Multi-objective search can improve its population | partial (refuted) | GAProperties |
| C67 | Fitness of a candidate is a proper k-fold cross validation on its active features | proved | GAProperties |
| C68 | No candidate without any active feature is evaluated | partial (refuted) | GAProperties |
| C19 | Greedy elimination produces a faithful elimination order | proved | ElimProperties |
| C20 | Greedy elimination resumed from its save file gives the same result as an uninterrupted run | proved | ElimProperties |
| C21 | Elimination results do not depend on the parallel schedule | partial (refuted) | ElimProperties |
| C22 | Meta data reported for an eliminated feature belongs to that feature | partial (refuted) | ElimProperties |
| C23 | Feature perturbation touches only the chosen column and never the caller's data | proved | ElimProperties |
| C69 | Greedy elimination accepts list-valued prediction functions | partial (refuted) | ElimProperties |
| C70 | Progress saved by greedy elimination survives a crash at any moment | partial (refuted) | ElimProperties |
| C24 | Active learning keeps train and test sets a partition of the data | proved | ActiveProperties |
| C25 | Runs of an active learning ensemble are independent | partial (refuted) | ActiveProperties |
| C26 | Acquire returns the best-scoring candidates | proved | ActiveProperties |
| C27 | Acquisition functions respect the objective | partial (refuted) | AcqProperties |
| C71 | rank accepts a float objective | partial (refuted) | AcqProperties |
| C72 | classify scores candidates relative to their own class | partial (refuted) | AcqProperties |
| C28 | DescriptorDatabase behaves like a table keyed by id | proved | DBProperties |
| C29 | FingerprintDB entries are write-once | proved | DBProperties |
| C30 | get_fingerprints returns one row per requested id, in the requested order | partial (refuted) | DBProperties |
| C73 | fill_db stores each value under the descriptor name it was given for | partial (refuted) | DBProperties |
| C74 | Successful DescriptorDatabase calls survive a crash | proved | DBProperties |
| C75 | fill_db is all or nothing | partial (refuted) | DBProperties |
| C76 | A FingerprintDB with-block saves everything on exit and a crash leaves a prefix | proved | DBProperties |
| C77 | A parameter entered without a symbol gets its own id as symbol | partial (refuted) | DBProperties |
| C31 | Target and feature scaling is invertible with the training statistics | partial (refuted) | PrepProperties |
| C32 | Standardized, normalised and min-max scaled features have the promised statistics | proved | PrepProperties |
| C33 | Cleaning keeps train, test and labels aligned | proved | PrepProperties |
| C34 | Outlier removal honours the requested deviation | partial (refuted) | PrepProperties |
| C35 | The general preprocessor transforms new data exactly as it transformed the training data | proved | PrepProperties |
| C40 | holdout_set splits data consistently | partial (refuted) | PrepProperties |
| C78 | Masked features are never removed by cleaning | partial (refuted) | PrepProperties |
| C79 | Preprocessing fails loudly when it eliminates every feature | partial (refuted) | PrepProperties |
| C80 | Preprocessed training data contain only finite numbers | partial (refuted) | PrepProperties |
| C81 | Scaling functions leave the caller's arrays unchanged | partial (refuted) | PrepProperties |
| C36 | Polynomial feature engineering keeps columns and labels aligned | partial (refuted) | FEProperties |
| C37 | Monomial generation is complete and free of repetitions | partial (refuted) | FEProperties |
| C38 | PCA returns the leading principal components | partial (refuted) | FEProperties |
| C82 | Square roots and logarithms of features are always defined | proved | FEProperties |
| C83 | Feature engineering leaves the caller's matrix unchanged | partial (refuted) | FEProperties |
| C84 | generate_features yields every ratio of coprime monomials exactly once | partial (refuted) | FEProperties |
| C85 | Quotient features report a zero denominator as infinity | partial (refuted) | FEProperties |
| C86 | Power and logarithm combinations are aligned with their labels | proved | FEProperties |
| C87 | Explained variance percentages of PCA add up to 100 | proved | FEProperties |
| C39 | Feature screening removes the same columns from train and test | proved | ScreenProperties |
| C65 | Feature selection by regression coefficients ranks and partitions the features | proved | ScreenProperties |
| C88 | The random check keeps only features that beat the random ones | proved | ScreenProperties |
| C89 | The random check works for any number of features | partial (refuted) | ScreenProperties |
| C90 | Iterative screening ends and returns every feature exactly once | proved | ScreenProperties |
| C91 | Iterative screening accepts the features the regression found most important | partial (refuted) | ScreenProperties |
| C92 | The response of a remaining feature is uncorrelated with the accepted ones | partial (refuted) | ScreenProperties |
| C93 | Screening uses the requested correlation coefficient | partial (refuted) | ScreenProperties |
| C41 | Kernel hyperparameters survive the round trip to the optimizer's flat list | partial (refuted) | KernProperties |
| C42 | Training covariance matrices are symmetric positive semidefinite, and positive definite with noise | proved | KernProperties |
| C94 | Hyperparameter bounds line up with the hyperparameters | proved | KernProperties |
| C95 | Scaling kernel hyperparameters is undone by rescaling them | proved | KernProperties |
| C96 | Scaled kernels on standardized features give the original covariance | partial (refuted) | KernProperties |
| C97 | The quadratic kernel uses every slope and the degree | partial (refuted) | KernProperties |
| C98 | A kernel without 'scaling' has prefactor one | partial (refuted) | KernProperties |
| C99 | Kernels accepted by the setup can be evaluated | partial (refuted) | KernProperties |
| C100 | Kernel setup rejects hyperparameters that make the covariance indefinite | partial (refuted) | KernProperties |
| C101 | A covariance entry depends on its two points only | proved | KernProperties |
| C102 | Kernel operations combine from left to right | partial (refuted) | KernProperties |
| C43 | Predictive variance is never negative and never exceeds the prior | proved | GPProperties |
| C44 | Predictions do not depend on the order of the training data | proved | GPProperties |
| C46 | All ways of asking a trained Gaussian process for uncertainty agree | partial (refuted) | GPScaleProperties, GPUpdateProperties |
| C103 | A Gaussian process prediction is the posterior mean | proved | GPProperties |
| C104 | Predictions of a batch equal predictions one at a time | proved | GPProperties |
| C105 | Only the last update matters | proved | GPUpdateProperties |
| C50 | Error metrics are consistent | proved | ErrorProperties |
| C106 | scale_data is scaling by hand | proved | GPScaleProperties |
| C107 | Units of the targets do not matter with scale_data | proved | GPScaleProperties |
| C108 | Units of the features do not matter with scale_data | proved | GPScaleProperties |
| C109 | Predictions are linear in the targets | proved | GPScaleProperties |
| C110 | Without noise a model reproduces its training data | proved | GPScaleProperties |
| C111 | uncertainty_with_reg accounts for noise | partial (refuted) | GPScaleProperties |
| C112 | Error percentiles are ordered | proved | ErrorProperties |
| C113 | The epsilon-insensitive error is bounded by the absolute error | proved | ErrorProperties |
| C114 | The rmse and absolute losses measure the fit | partial (refuted) | ErrorProperties |
| C115 | An optimized model is consistent with its hyperparameters | proved | GPOptProperties |
| C116 | A fixed basis reproduces its span | partial (refuted) | GPOptProperties |
| C45 | Gradient covariance blocks are the derivatives of the kernel | partial (refuted) | GPGradProperties, KernMultiProperties |
| C117 | The covariance with gradients is positive definite | proved | GPGradProperties |
| C118 | A model trained with gradients reproduces values and gradients | proved | GPGradProperties |
| C47 | The analytic gradient of the log marginal likelihood is the derivative of its value | partial (refuted) | LmlProperties |
| C119 | The likelihood gradient is right for the kernel hyperparameters of additive kernels | proved | LmlProperties |
| C120 | The reported likelihood is that of a multivariate normal distribution | proved | LmlProperties |
| C121 | A likelihood gradient is never returned for product kernels or for targets with gradients | proved | LmlProperties |
| C48 | A model written to file and read back predicts the same | partial (refuted) | GPIOProperties |
| C49 | Ridge regression solves the regularised least squares problem | partial (refuted) | RidgeProperties |
| C122 | The leave-one-out estimate of ridge regression is the error of really leaving out | proved | RidgeProperties |
| C123 | The regularization search of ridge regression returns the best of all values tried | proved | RidgeProperties |
| C124 | Predictions of ridge regression are inner products with the coefficients | proved | RidgeProperties |
| C51 | Forces of the model potentials are exact negative gradients of their energies | proved | PotProperties |
| C125 | The potential with noise scales energy and forces, each by one factor | proved | PotProperties |
| C52 | Masking of constrained coordinates is lossless | partial (refuted) | MaskProperties |
| C53 | Surrogate optimisation keeps its training data consistent | proved | MLMinProperties, MLNebProperties |
| C54 | Restarting a minimisation neither loses nor duplicates evaluated structures | proved | MLMinProperties |
| C55 | ML-NEB evaluates an interior image as its first extra point | partial (refuted) | MLNebProperties |
| C126 | The Atoms objects of a minimisation are those of the training data | partial (refuted) | MLMinProperties |
| C127 | Previous calculations are added to the data of an ML-NEB | partial (refuted) | MLNebProperties |
| C128 | The force record of an ML-NEB has an entry for each evaluated structure | partial (refuted) | MLMinProperties, MLNebProperties |
| C129 | The number of images survives a run | partial (refuted) | MLNebProperties |
| C130 | The default spring constant depends only on the path | partial (refuted) | MLNebProperties |
| C131 | Convergence is judged by the largest force on an atom | proved | MLMinProperties, MLNebProperties |
| C132 | A minimisation evaluates the best of the points it visited on the surrogate | proved | MLMinProperties |
| C133 | The initial path of an ML-NEB joins the end points | proved | MLNebProperties |
| C56 | A learning curve uses nested training subsets of the requested sizes | partial (refuted) | LCProperties |
| C134 | A parallel learning curve gives the same results as a serial one | partial (refuted) | LCProperties |
| C135 | Each row of a data size hierarchy is the error of a model trained on its own subset | partial (refuted) | LCProperties |
| C136 | The prediction error is a root mean square error in the units of the targets | proved | LCProperties |
| C137 | Scaled training data do not depend on the subset they are tested on | proved | LCProperties |
| C138 | Global scaling returns the subset scaled with the statistics of all data | partial (refuted) | LCProperties |
| C139 | Statistics of a learning curve are taken per level | partial (refuted) | LCProperties |
| C140 | Hierarchical cross-validation averages each result once | proved | LCProperties |
| C141 | Lasso feature selection returns sets of the promised sizes | proved | LCProperties |
| C57 | Train and unique test sets drawn from atoms are disjoint | proved | ApiProperties |
| C58 | The CatMAP energy landscape keeps the most stable structure per state | partial (refuted) | ApiProperties |
| C59 | Neighbour lists from connectivity matrices are symmetric and irreflexive | proved | ApiProperties |
| C60 | Distance-based neighbour shells are symmetric | partial (refuted) | ApiProperties |
| C64 | Penalty functions vanish outside and grow quadratically inside the critical range | proved | ApiProperties |
| C142 | Neighbour list, graph and adjacency matrix agree | proved | ApiProperties |
| C143 | Different surface states get different CatMAP keys | proved | ApiProperties |
| C61 | Bag fingerprints do not depend on the order of atoms and count everything once | partial (refuted) | FeatProperties |
| C62 | Feature matrices have one aligned row per structure and one column per feature name | partial (refuted) | FeatVecProperties |
| C144 | Element types and padded length cover all structures | proved | FeatVecProperties |
| C145 | Bonds are counted by element and coordination number | proved | FeatProperties |
| C146 | Several processes give the same feature matrix as one | proved | FeatVecProperties |
| C147 | Atomic pair features list every ordered pair of atoms of every structure | proved | FeatVecProperties |
| C148 | Every documented default set of fingerprint functions can be built | partial (refuted) | FeatVecProperties |
| C149 | Elemental data is returned under the right names | proved | PeriodicProperties |
| C150 | Parameters may be requested in any order | partial (refuted) | PeriodicProperties |
| C151 | Property fingerprints are statistics over the atoms of a group | proved | PeriodicProperties |
| C152 | Feature names are distinct | partial (refuted) | PeriodicProperties |
| C153 | Valence electrons are counted from the configuration | partial (refuted) | PeriodicProperties |
| C154 | Compositions are read from formulas with their coefficients | partial (refuted) | PeriodicProperties |
| C155 | The atomic radius comes from the first available source | proved | PeriodicProperties |
| C63 | Element parameter features report the sum and mean over atoms | partial (refuted) | FingerProperties |
| C156 | Summed element parameters | proved | FingerProperties |
| C157 | The Coulomb matrix spectrum does not depend on the order of atoms | proved | FingerProperties |
| C158 | distance_vec returns average distances between atoms of an element | partial (refuted) | NeighborProperties |
| C159 | Neighbour sums weight nearer shells more and do not depend on the order of atoms | proved | NeighborProperties |
| C160 | neighbor_mean_vec averages over neighbours | partial (refuted) | NeighborProperties |
| C161 | Autocorrelation functions sum over pairs at each graph distance | proved | NeighborProperties |
| C162 | Convoluted fingerprints multiply values of bonded atoms | partial (refuted) | NeighborProperties |
| C163 | nearestneighbour_vec averages numbers of neighbours | partial (refuted) | ParticleProperties |
| C164 | bond_count_vec counts every bond | partial (refuted) | ParticleProperties |
| C165 | Coordination numbers of an adsorption site | proved | AdsorbProperties |
| C166 | Generalized coordination numbers | partial (refuted) | AdsorbProperties |
| C167 | Bag of coordination numbers | partial (refuted) | AdsorbProperties |
| C168 | Bag of adsorbate atoms | proved | AdsorbProperties |
| C169 | Neighbours of the chemisorbed atoms | proved | AdsorbProperties |
| C170 | Strain from atomic radii | proved | AdsorbProperties |
| C171 | Bonds within the adsorbate | proved | AdsorbBondProperties |
| C172 | Adsorbate and surface bonds without slab bonds | partial (refuted) | AdsorbBondProperties |
| C173 | All bonds of the adsorbate atoms | partial (refuted) | AdsorbBondProperties |
| C174 | Electronegativity differences over adsorbate-site bonds | proved | AdsorbBondProperties |
| C175 | Electronegativity differences over adsorbate bonds | partial (refuted) | AdsorbBondProperties |
| C176 | Formal charges of a slab are conserved | proved | ChargeProperties |
| C177 | Excess charges measure the distance to oxidation states | proved | ChargeProperties |
| C178 | utilities.formal_charges conserves charge | partial (refuted) | ChargeProperties |
| C179 | Adsorbate and slab contain every atom once | proved | SurfProperties |
| C180 | Supplied groups of atoms are checked | partial (refuted) | SurfProperties |
| C181 | Site, chemisorbed and ligand atoms | proved | SurfProperties |
| C182 | Every image gets all groups of atoms | partial (refuted) | SurfProperties |
| C183 | The termination is the outermost layer | partial (refuted) | SurfProperties |
| C184 | Layers from tags or constraints | proved | SurfProperties |
| C185 | Bulk atoms belong to the slab | partial (refuted) | SurfProperties |
| C186 | The adsorbate has the composition of its species | partial (refuted) | SurfProperties |
| C187 | Reconstructed slabs are found | proved | SurfProperties |
| C188 | Cations and anions | proved | SurfProperties |
| C189 | Connection matrices are symmetric | proved | NMatProperties |
| C190 | Neighbour shells cover all pairs | partial (refuted) | NMatProperties |
| C191 | connection_dict lists the requested neighbours | partial (refuted) | NMatProperties |
| C192 | Neighbour features do not depend on the order of atoms | proved | NMatProperties |
| C193 | Neighbour features count bonds between elements | partial (refuted) | NMatProperties |
| C194 | Initial chromosomes are distinct | proved | GAFSProperties |
| C195 | Chromosomes stay valid | proved | GAFSProperties |
| C196 | Offspring mix two parents | partial (refuted) | GAFSProperties |
| C197 | Crossover keeps scores right | proved | GAFSProperties |
| C198 | Recorded scores belong to the chromosomes | partial (refuted) | GAFSProperties |
| C199 | The best fitness is kept without mutations | proved | GAFSProperties |
| C200 | Crossover needs enough members | partial (refuted) | GAFSProperties |
| C201 | Parents are made less likely to survive | partial (refuted) | GAFSProperties |
| C202 | Homogeneity | proved | GAFSProperties |
| C203 | Feature frequencies are percentages | proved | GAFSProperties |
| C204 | Feature frequencies cover all columns | partial (refuted) | GAFSProperties |
| C205 | Random genes can be drawn at any time | partial (refuted) | GAFSProperties |
| C206 | The composition counts all atoms | proved | SlabUtilProperties |
| C207 | Oxides contain oxygen and a metal | proved | SlabUtilProperties |
| C208 | A metal oxide is recognised | partial (refuted) | SlabUtilProperties |
| C209 | Layers divide the slab | proved | SlabUtilProperties |
| C210 | Layers contain all atoms of any slab | partial (refuted) | SlabUtilProperties |
| C211 | Metals are complete | partial (refuted) | SlabUtilProperties |
| C212 | One row per site | proved | SiteProperties |
| C213 | Missing data are visible | partial (refuted) | SiteProperties |
| C214 | Cohesive energy is per atom and relative to the references | proved | SiteProperties |
| C215 | Site stability is a difference of cohesive energies | proved | SiteProperties |
| C216 | Unique sites are all atoms | proved | SiteProperties |
| C217 | Random sites exist and are not excluded | proved | SiteProperties |
| C218 | Random sites are different | partial (refuted) | SiteProperties |
| C219 | The references of the user are used | partial (refuted) | SiteProperties |
| C220 | Features belong to the current sites | partial (refuted) | SiteProperties |
| C221 | Refresh brings the table up to date | proved | SiteProperties |
| C222 | Outliers are removed from table and sites alike | partial (refuted) | SiteProperties |
| C223 | The vacancy is found | proved | SiteProperties |
| C224 | Sites from files are numbered | proved | SiteProperties |
| C225 | Materials have different numbers | partial (refuted) | SiteProperties |
| C226 | Site features describe the bonded atoms | proved | SiteProperties |
| C227 | Angles of a site | proved | SiteProperties |
| C228 | Isolated sites can be featurized | partial (refuted) | SiteProperties |
| C229 | Energies from a file reach their sites | proved | SiteProperties |
| C230 | Updating energies keeps the energy of the material | partial (refuted) | SiteProperties |
| C231 | The table of all sites | proved | SiteProperties |
| C232 | No column of the table of all sites is lost | partial (refuted) | SiteProperties |
| C233 | Composition features without order | proved | SiteProperties |
| C234 | Features of a system are reproducible | partial (refuted) | SiteProperties |
| C235 | Clusters partition the data | proved | UtilProperties |
| C236 | Clustering works without the optional data | partial (refuted) | UtilProperties |
| C237 | The cluster acquisition function returns a value per point | partial (refuted) | UtilProperties |
| C238 | Sammon's error measures changes of distance | proved | UtilProperties |
| C239 | Sammon's error is a number | partial (refuted) | UtilProperties |
| C240 | The pair distribution counts neighbours | proved | UtilProperties |
| C241 | Positions of the pair distribution are bin centres | partial (refuted) | UtilProperties |
| C242 | Pair distributions without minimum images | partial (refuted) | UtilProperties |
| C243 | Images without the element do not count | partial (refuted) | UtilProperties |
| C244 | An atom is no neighbour of itself | partial (refuted) | UtilProperties |
| C245 | Correlations do not depend on scaling | proved | UtilProperties |
| C246 | A written split is read back | proved | IOProperties |
| C247 | Any split can be written and read back | partial (refuted) | IOProperties |
| C248 | The file of a search has the last generation | proved | IOProperties |
| C249 | An interrupted save keeps the previous generation | partial (refuted) | IOProperties |
| C250 | A hierarchy split is loaded from its file | partial (refuted) | IOProperties |
| C251 | Stored data are returned by their index | proved | IOProperties |
| C252 | Storing data again does not mix training and test | partial (refuted) | IOProperties |
| C253 | Global data have all features once | proved | IOProperties |
| C254 | Backward selection keeps the most sensitive features | partial (refuted) | SensProperties |
| C255 | Backward selection can be repeated | partial (refuted) | SensProperties |
| C256 | Sensitivities are nonnegative | proved | SensProperties |
| C257 | Sensitivity measures the model's derivative | partial (refuted) | SensProperties |
| C258 | The general GP does not depend on units | partial (refuted) | GenGPProperties |
| C259 | Documented dimensions are accepted | partial (refuted) | GenGPProperties |
| C260 | The general GP trains with its default kernel | partial (refuted) | GenGPProperties |
| C261 | The smooth general GP is a Gaussian process | proved | GenGPProperties |
| C262 | The bootstrap error is the .632 estimate of ridge regressions | proved | BootProperties |
| C263 | The bootstrap search returns the best regularization it tried | proved | BootProperties |
| C264 | The bootstrap search uses the data for any set of samples | partial (refuted) | BootProperties |
| C265 | The bootstrap samples are reproducible and leave the random state alone | partial (refuted) | BootProperties |
| C266 | Regularization returns the coefficients of the regularization it returns | partial (refuted) | BootProperties |
| C267 | The list of leave-one-out errors has the error for each regularization | proved | BootProperties |
| C268 | Structures become rows of training data | proved | PathProperties |
| C269 | The extracted data identify the first and last structure | partial (refuted) | PathProperties |
| C270 | Flat arrays and positions convert both ways | proved | PathProperties |
| C271 | An evaluated point is stored with its own energy and forces | proved | PathProperties |
| C272 | Forces are evaluated at the requested point | partial (refuted) | PathProperties |
| C273 | All training energies of ML-NEB are of one kind | partial (refuted) | PathProperties |
| C274 | The surrogate of ML-NEB does not depend on the zero of energy | proved | PathProperties |
| C275 | The width of the surrogate starts within its bounds | partial (refuted) | PathProperties |
| C276 | Results of a predicted path belong to its images | proved | PathProperties |
| C277 | The file of results agrees with the images | partial (refuted) | PathProperties |
| C278 | The report has one row per step | proved | PathProperties |
| C279 | Reported barriers are those of the predicted path | partial (refuted) | PathProperties |
| C280 | The surrogate optimization starts from the path it announces | partial (refuted) | PathProperties |
| C281 | Varying the features adds one fit per selected set | proved | LCVarProperties |
| C282 | A learning curve with varying features returns its results | partial (refuted) | LCVarProperties |
| C283 | A learning curve with a fixed number of features is that of the selected columns | proved | LCVarProperties |
| C284 | Every documented combination of arguments of hierarchy works | partial (refuted) | LCVarProperties |
| C285 | Features of a model are selected from its training data | partial (refuted) | LCVarProperties |
| C286 | Frequencies of features come from the requested subset | proved | LCVarProperties |
| C287 | Refining a penalty keeps the number of features | proved | LCVarProperties |
| C288 | Each generation is recorded with the statistics of its population | proved | GAFSProperties |
| C289 | Data attached to a structure are returned as they were last set | proved | AtomsProperties |
| C290 | A fingerprint generator uses the neighbour list of the current geometry | partial (refuted) | AtomsProperties |
| C291 | Graphs of structures respect the given cutoffs | partial (refuted) | AtomsProperties |
| C292 | Connectivity is added only where it is missing | proved | AtomsProperties |
| C293 | Connectivity used for features is that of the present geometry | partial (refuted) | AtomsProperties |
| C294 | Pair distances are always computed anew | proved | AtomsProperties |
| C295 | A fingerprint passes the label check exactly if it has one value per label | proved | AtomsProperties |
| C296 | Neighbour lists count periodic images and are symmetric | proved | AtomsProperties |
| C297 | A structure's graph connects exactly the atoms in range | proved | AtomsProperties |
| C298 | The connectivity matrix marks exactly the pairs in range | proved | AtomsProperties |
| C299 | The connectivity matrix counts multiple connections and accepts all documented inputs | partial (refuted) | AtomsProperties |
| C300 | Rate control can be obtained for every state of an energy landscape | partial (refuted) | AtomsProperties |
| C301 | Particle vectors with given atom types depend on the structure only | proved | AtomsProperties |
| C302 | Particle vectors do not depend on the order of structures and leave structures unchanged | partial (refuted) | AtomsProperties |
| C303 | Grid of penalties of the line search | proved | RegFitProperties |
| C304 | Feature selection by the LASSO line search | proved | RegFitProperties |
| C305 | Ranking of features by regression coefficients | proved | RegFitProperties |
| C306 | Features without a requested size | partial (refuted) | RegFitProperties |
| C307 | Error of the fitted linear model | partial (refuted) | RegFitProperties |
| C308 | Main elements of a CatApp site | proved | CatAppProperties |
| C309 | Second element of a CatApp site with three elements | partial (refuted) | CatAppProperties |
| C310 | CatApp fingerprint and order of atoms | partial (refuted) | CatAppProperties |
| C311 | Concentration code of the CatApp fingerprint | partial (refuted) | CatAppProperties |
| C312 | Contents of the CatApp fingerprint | proved | CatAppProperties |
| C313 | Adsorbate atoms found from a reference slab | proved | RefSlabProperties |
| C314 | Composition of the adsorbate found from a reference slab | partial (refuted) | RefSlabProperties |
| C315 | Fitness of a feature subset | proved | FitnessProperties |
| C316 | Fitness and the units of features | proved | FitnessProperties |
| C317 | Fitness and the units of targets | proved | FitnessProperties |
| C318 | Covariance of the seuclidean kernel | proved | KernMoreProperties |
| C319 | Seuclidean kernel is Gaussian | partial (refuted) | KernMoreProperties |
| C320 | Scaled kernel returns a covariance | partial (refuted) | KernMoreProperties |
| C321 | Covariance of the Aitchison-Aitken kernel | partial (refuted) | KernMoreProperties |
| C322 | Parameters of the Aitchison-Aitken kernel | partial (refuted) | KernMoreProperties |
| C323 | Scaling of hyperparameters | proved | KernMoreProperties |
| C324 | Geometry hash and order | proved | HashProperties |
| C325 | Geometry hash and elements | partial (refuted) | HashProperties |
| C326 | Geometry hash and rounding | partial (refuted) | HashProperties |
| C327 | Geometry hash of large structures | partial (refuted) | HashProperties |
| C328 | Geometry hash has no side effects | partial (refuted) | HashProperties |
| C329 | Formula of a prototype | partial (refuted) | MagpieProperties |
| C330 | Sites of a prototype | partial (refuted) | MagpieProperties |
| C331 | Table of prototypes | proved | MagpieProperties |
| C332 | Fingerprints of prototypes | proved | MagpieProperties |
| C333 | Magpie runs are independent | proved | MagpieProperties |
| C334 | Files of Voronoi fingerprints | proved | MagpieProperties |
| C335 | Rows of Voronoi fingerprints | partial (refuted) | MagpieProperties |
| C336 | Structures of a database | proved | DbFeatProperties |
| C337 | Features that repeat stored values | proved | DbFeatProperties |
| C338 | Names of CatApp entries | partial (refuted) | DbFeatProperties |
| C339 | Masses do not depend on the order of atoms | proved | DbFeatProperties |
| C340 | Elements of adsorbates | proved | DbFeatProperties |
| C341 | Trajectories of sites | partial (refuted) | SiteFilesProperties |
| C342 | Reference energies of a folder | partial (refuted) | SiteFilesProperties |
| C343 | Saved data sets are read back | proved | SiteFilesProperties |
| C344 | EMT stability of a site | proved | SiteFilesProperties |
| C345 | Default size and step of iterative screening | partial (refuted) | DimProperties |
| C346 | Given size and step of screening | proved | DimProperties |
| C347 | Projections are fitted to training data only | proved | DimProperties |
| C348 | Composition names tell compositions apart | proved | DimProperties |
| C349 | Composition names are reproducible | partial (refuted) | DimProperties |
| C350 | Default length scales | proved | GenGPProperties |
| C351 | Iterative screening with its linear models | proved | ScreenFitProperties |
| C352 | LASSO screening ends with what it has | partial (refuted) | ScreenFitProperties |
| C353 | Layout of convoluted fingerprints | proved | ConvProperties |
| C354 | Names of conv_bulk | proved | ConvProperties |
| C355 | Names of conv_term | partial (refuted) | ConvProperties |
| C356 | Names follow the properties asked for | partial (refuted) | ConvProperties |
| C357 | Names of bulk features | partial (refuted) | ConvProperties |
| C358 | Bulk features report the bulk modulus | partial (refuted) | ConvProperties |
| C359 | Bulk names follow extra_params | partial (refuted) | ConvProperties |
| C360 | Separate noise for values and derivatives | proved | KernMultiProperties |
| C361 | Constants for values and derivatives give a covariance | partial (refuted) | KernMultiProperties |
| C362 | Models with different kernel lists do not influence each other | proved | ShareProperties |
| C363 | Models built from one kernel list are independent | partial (refuted) | ShareProperties |
| C364 | A kernel list can be used again | partial (refuted) | ShareProperties |
| C365 | The minimizer always has a trained surrogate | proved | MinSurrProperties |
| C366 | Hyperparameters of the minimizer's surrogate | proved | MinSurrProperties |
| C367 | The minimizer's surrogate does not depend on the zero of energy | proved | MinSurrProperties |
| C368 | The documented kernels of the minimizer are available | partial (refuted) | MinSurrProperties |
| C369 | A failed optimisation falls back to the last optimised hyperparameters | partial (refuted) | MinSurrProperties |
| C370 | The surrogate of a path can always be trained | proved | PathSurrProperties |
| C371 | The surrogate of a path does not depend on the zero of energy | proved | PathSurrProperties |
| C372 | The surface that images are relaxed on is smooth and the forces are its slopes | proved | PathSurrProperties |
| C373 | The surrogate of a path is flat far from the data | proved | PathSurrProperties |
| C374 | The surrogate surface of the minimizer is smooth and flat far from the data | proved | PathSurrProperties |
| C375 | A genetic search ends exactly when progress has stopped | proved | GAProperties |
| C376 | The origin of the feature space does not matter to a Gaussian process | proved | GPSymProperties |
| C377 | Rotating the feature space does not matter to isotropic kernels | proved | GPSymProperties |
| C378 | The order of the feature columns does not matter to a Gaussian process | proved | GPSymProperties |
| C379 | Every covariance is the formula of its kernels | proved | GPSymProperties |
| C380 | More regularization means smaller coefficients and a worse fit | proved | RidgeTradeProperties |
| C381 | The order of the data does not matter to ridge regression | proved | RidgeTradeProperties |
| C382 | A predicted point is related to the data as a trained one | proved | KernJointProperties |
| C383 | Candidates are ranked against the best known target | proved | AcqProperties |
| C384 | Acquisition values are probabilities and expectations | proved | AcqIntegralProperties |
| C385 | An adsorbate that shares an element with the slab is identified by bonds | proved | SurfProperties |
| C386 | A Gaussian process prediction is the best trade-off between fit and smoothness | proved | GPRidgeProperties |
| C387 | Ridge regression is a Gaussian process with a linear kernel | proved | GPRidgeProperties |
| C388 | A Gaussian process prediction is the best linear predictor and its uncertainty the expected error | proved | GPRidgeProperties |
| C389 | Predicted values added as data change no prediction | proved | GPDataProperties |
| C390 | More noise means a worse fit, a smoother prediction and more uncertainty | proved | GPDataProperties |
| C391 | Predictions at the training points change no more than the targets | proved | GPDataProperties |
| C392 | The uncertainty bounds the error | proved | GPErrorProperties |
| C393 | Similar points have similar predictions and uncertainties | proved | GPErrorProperties |
| C394 | Repeating all data divides the noise | proved | GPErrorProperties |
| C395 | Site feature tables are made once | proved | SiteProperties |
| C396 | The logarithmic error compares ratios | proved | LogErrorProperties |
| C397 | Every sample counts in the logarithmic error | partial (refuted) | LogErrorProperties |
| C398 | Scaled targets have the promised statistics | proved | TargetProperties |
| C399 | Adding sites keeps those there are | proved | SiteProperties |
| C400 | What one more observation changes | proved | GPNextProperties |
| C401 | The log marginal likelihood is the sum of predicted log densities | proved | GPChainProperties |
| C402 | Processed training columns are standardized | proved | StandardProperties |
| C403 | A list is split into two in every way once | partial (refuted) | SplitProperties |
| C404 | Leaving one observation out | proved | GPLeaveProperties |
| C405 | Far from the data a Gaussian process returns to zero with full uncertainty | proved | GPFarProperties |
| C406 | Far from scaled data a Gaussian process returns to the mean of its targets | proved | GPFarScaledProperties |
| C407 | Repeated measurements count as their average | proved | GPAverageProperties |
| C408 | Predictions depend on the ratio of kernel and noise | proved | GPRatioProperties |
| C409 | Features no kernel uses do not matter to a Gaussian process | proved | GPUnusedProperties |
| C410 | A constant kernel predicts the shrunken mean | proved | GPConstantProperties |
| C411 | Number of images from a distance | proved | NebStartProperties |
| C412 | Structures of one size, end energies kept | proved | NebStartProperties |
| C413 | Default bounds of the noise, updates with features | proved | GPSetupProperties |
| C414 | Product of gaussian kernels | proved | GPProductProperties |
| C415 | The order of added or multiplied kernels does not matter | proved | GPOrderProperties |
| C416 | Scalings add and multiply | proved | GPScalingProperties |

## 4. What is modelled and what is not

Per source file, from the line citations in the model files. A function counts as modelled if
its body (or the part of it that computes results, without printing, plotting, option parsing
and documentation) is transcribed. Constructors are modelled as the record or the parameters
they set up. Simplifications are stated in the comment of each definition.

Outside the model everywhere: floating point rounding, overflow and NaN (except where a file
says otherwise), plotting, progress bars, printing and timing, the internals of numpy, scipy,
scikit-learn, ase, networkx, sqlite3, h5py and multiprocessing (represented by their documented
results, or by arbitrary functions), the data tables (proxy-mendeleev.json, ase's covalent
radii: arbitrary functions), the test suite, documentation and tutorials.

* `catlearn/active_learning/acquisition_functions.py`: modelled: optimistic, UCB, EI, PI, proximity, optimistic_proximity, probability_density, cluster, rank, classify; **not** modelled: random_acquisition.
* `catlearn/active_learning/algorithm.py`: modelled: test_acquisition, acquire, ensemble_test, _test_acquisition.
* `catlearn/api/ase_atoms_api.py`: modelled: database_to_list, images_connectivity, images_pair_distances, extend_atoms_class, set_features, get_features, set_neighborlist, get_neighborlist, set_graph, get_graph, _initialize_catlearn.
* `catlearn/api/ase_data_setup.py`: modelled: get_unique, get_train.
* `catlearn/api/catmap.py`: modelled: catmap_energy_landscape, get_rate_control; **not** modelled: catmap_pickle.
* `catlearn/api/networkx_graph_api.py`: modelled: ase_to_networkx, networkx_to_adjacency, matrix_to_nl.
* `catlearn/cross_validation/hierarchy_cv.py`: modelled: todb, split_index, load_split, get_subset_data, split_predict, transform_output, _get_index, _write_split, _compile_split, _get_data, globalscaledata.
* `catlearn/cross_validation/k_fold_cv.py`: modelled: k_fold, write_split, read_split.
* `catlearn/estimator/general_gp.py`: modelled: train_gaussian_process, gaussian_process_predict, _process_train_data.
* `catlearn/estimator/general_kernel.py`: modelled: general_kernel, default_lengthscale, smooth_kernel.
* `catlearn/estimator/general_preprocess.py`: modelled: process, transform, _eliminate_cleaner, _standardize_scalar.
* `catlearn/featurize/adsorbate_prep.py`: modelled: autogen_info, termination_info, detect_adsorbate, detect_termination, check_reconstructions, compare_slab_connectivity, slab_index, ads_index, sym2ads_index, connectivity2ads_index, slab_positions2ads_index, tags2ads_index, last2ads_index, formula2ads_index, layers2ads_index, z2ads_index, info2primary_index, tags_termination, layers_termination, constraints_termination, connectivity_termination, auto_layers, attach_cations; **not** modelled: catalysis_hub_to_info.
* `catlearn/featurize/asap_wrapper.py`: **not** modelled: ptm_structure_fpv, ptm_alloy_fpv.
* `catlearn/featurize/base.py`: modelled: make_neighborlist, get_neighborlist, check_labels; **not** modelled: get_positions, get_atomic_numbers, get_masses, get_all_distances.
* `catlearn/featurize/neighbor_matrix.py`: modelled: neighbor_features, connection_matrix, connection_dict, property_matrix, _get_neighborlist, _get_periodic_neighborlist, _element_list, _heteroatomic_matrix, _generalized_matrix, _get_features.
* `catlearn/featurize/periodic_table_data.py`: modelled: n_outer, get_mendeleev_params, list_mendeleev_params, stat_mendeleev_params, get_radius, default_catlearn_radius, make_labels.
* `catlearn/featurize/setup.py`: modelled: default_fingerprinters, normalize_features, featurize_atomic_pairs, return_vec, return_names, _get_vec, _concatenate_vec, _get_atom_types, _get_ads_atom_types, _get_atom_length, get_dataframe.
* `catlearn/featurize/site_stability.py`: modelled: composition_name, traj_to_reference_dict, get_df, update_site_file, get_site_index, unique_set, total_energy, cohesive_energy, get_features, get_site_features, site_angles, site_distances, system_features, create_defect, get_EMT_site_stability, _update_materials, refresh, site_features, normalized_site_features, get_DFT_site_stability, features_of_all_sites, unique_sites, select_specific_sites, select_random_sites, write_site_trajectories, read_sites, traj_to_sites, save_dataset, remove_outlier, mean_population_fitness, population_percentile, max_population_fitness, random_genes, get_chromosome_score, get_fitness, crossover, mutate_duplicate_chromosomes, homogeneity, mutate, evolve, feature_frequencies; **not** modelled: save_sites, plot_features, plot_evolution_stats.
* `catlearn/featurize/slab_utilities.py`: modelled: stoichiometry, is_metal, is_oxide, slab_layers.
* `catlearn/fingerprint/adsorbate.py`: modelled: term, bulk, mean_chemisorbed_atoms, mean_site, min_site, max_site, median_site, sum_site, generalized_cn, bag_cn, bag_atoms_ads, count_chemisorbed_fragment, mean_surf_ligands, ads_sum, ads_av, strain, bag_edges_ads, bag_edges_chemi, bag_edges_all, en_difference_ads, en_difference_chemi, en_difference_active, delta_energy, db_size, dbid, ctime; **not** modelled: bag_cn_general.
* `catlearn/fingerprint/bulk.py`: modelled: bulk_summation, bulk_average, bulk_std, xyz_id.
* `catlearn/fingerprint/catapp.py`: modelled: catapp_AB, name.
* `catlearn/fingerprint/chalcogenide.py`: modelled: formal_charges, mean_cation, min_cation, max_cation, median_cation, sum_cation.
* `catlearn/fingerprint/convoluted.py`: modelled: check_length, conv_bulk, conv_term.
* `catlearn/fingerprint/graph.py`: modelled: neighbor_sum_vec, neighbor_mean_vec, _normalize_neighbors, _prop2matrix; **not** modelled: _initialize_features.
* `catlearn/fingerprint/molecule.py`: modelled: get_autocorrelation.
* `catlearn/fingerprint/particle.py`: modelled: nearestneighbour_vec, bond_count_vec, distribution_vec, connections_vec, rdf_vec.
* `catlearn/fingerprint/prototype.py`: modelled: write_proto_input, update_str, generate, generate_all; **not** modelled: run_proto.
* `catlearn/fingerprint/standard.py`: modelled: composition_vec, element_parameter_vec, element_mass_vec, _get_coulomb, eigenspectrum_vec, distance_vec, bag_elements, bag_edges, bag_element_cn, bag_edges_cn.
* `catlearn/fingerprint/voro.py`: modelled: write_voro_input, generate; **not** modelled: run_voro.
* `catlearn/ga/algorithm.py`: modelled: search, _new_generation, _selection, _serial_iterator, _parallel_iterator, _pareto_transform, _locate_pareto, _cross_validate; **not** modelled: _print_data.
* `catlearn/ga/convergence.py`: modelled: no_progress, stagnation.
* `catlearn/ga/initialize.py`: modelled: initialize_population.
* `catlearn/ga/io.py`: modelled: _write_data, read_data.
* `catlearn/ga/mating.py`: modelled: cut_and_splice.
* `catlearn/ga/mutate.py`: modelled: random_permutation, probability_remove, probability_include.
* `catlearn/ga/natural_selection.py`: modelled: population_reduction, remove_duplicates.
* `catlearn/ga/predictors.py`: modelled: minimize_error, minimize_error_descriptors, minimize_error_time.
* `catlearn/learning_curve/data_process.py`: modelled: scaling_data, globalscaling, prediction_error, get_statistic, average_nested.
* `catlearn/learning_curve/feature_selection.py`: modelled: selection, feature_inspection, alpha_finder, interval_modifier, alpha_refinment.
* `catlearn/learning_curve/learning_curve.py`: modelled: run, hierarchy, feature_frequency, _single_test.
* `catlearn/learning_curve/placeholder.py`: modelled: predict_subsets, get_data_scale, reg_feat_var, reg_data_var, getstats.
* `catlearn/learning_curve/pltfile.py`: **not** modelled: violinplot, originalplot, featselect_featvar_plot.
* `catlearn/optimize/constraints.py`: modelled: create_mask, apply_mask, unmask_geometry.
* `catlearn/optimize/functions_calc.py`: modelled: calculate, calculate, calculate, calculate, calculate, calculate, calculate.
* `catlearn/optimize/io.py`: modelled: ase_to_catlearn, array_to_ase, array_to_atoms, print_info_neb, print_info, store_results_neb, store_trajectory_neb; **not** modelled: print_time, print_version, print_cite_mlmin, print_cite_mlneb.
* `catlearn/optimize/mlmin.py`: modelled: run, fit, converged, get_fmax.
* `catlearn/optimize/mlneb.py`: modelled: run, create_ml_neb, train_gp_model, get_results_predicted_path, calculate, get_fmax, get_energy_catlearn, get_forces_catlearn, eval_and_append.
* `catlearn/optimize/tools.py`: **not** modelled: plotneb.
* `catlearn/preprocess/clean_data.py`: modelled: remove_outliers, clean_variance, clean_infinite, clean_skewness.
* `catlearn/preprocess/feature_elimination.py`: modelled: eliminate_features, screen, iterative_screen, _iterator, _set_index, _get_correlation, _dimension_check, _reduce_matrix, _regression_ordering, _get_response, _random_extend.
* `catlearn/preprocess/feature_engineering.py`: modelled: single_transform, get_order_2, get_div_order_2, get_labels_order_2, get_order_2ab, get_labels_order_2ab, get_ablog, get_labels_ablog, _separate_list, _decode_key, generate_positive_features, generate_features.
* `catlearn/preprocess/feature_extraction.py`: modelled: pls, pca, spca, catlearn_pca.
* `catlearn/preprocess/greedy_elimination.py`: modelled: greedy_elimination, _load_data, _write_data, _parallel_iterator, _serial_iterator, _single_elimination.
* `catlearn/preprocess/importance_testing.py`: modelled: importance_elimination, _parallel_iterator, _serial_iterator, _predictor, feature_invariance, feature_randomize, feature_shuffle.
* `catlearn/preprocess/scaling.py`: modelled: standardize, normalize, min_max, unit_length, target_standardize, target_normalize, target_center.
* `catlearn/regression/cost_function.py`: modelled: get_error, _get_percentiles, _cost_function.
* `catlearn/regression/gaussian_process.py`: modelled: predict, predict_uncertainty, update_data, optimize_hyperparameters, update_gp, _make_prediction, _fixed_basis, _update_lml.
* `catlearn/regression/gpfunctions/covariance.py`: modelled: get_covariance.
* `catlearn/regression/gpfunctions/default_scale.py`: modelled: train, test, rescale_targets.
* `catlearn/regression/gpfunctions/hyperparameter_scaling.py`: modelled: hyperparameters, rescale_hyperparameters.
* `catlearn/regression/gpfunctions/io.py`: modelled: write, read, write_train_data, read_train_data, _kernel_list_to_group, _load_kernel_list_from_group, _dict_to_group, _load_dict_from_group.
* `catlearn/regression/gpfunctions/kernel_scaling.py`: modelled: kernel_scaling, _constant_kernel_scale, _gaussian_kernel_scale, _AA_kernel_scale, _linear_kernel_scale, _quadratic_kernel_scale, _laplacian_kernel_scale.
* `catlearn/regression/gpfunctions/kernel_setup.py`: modelled: prepare_kernels, _scaling_setup, _constant_setup, _constant_multi_setup, _noise_multi_setup, _gaussian_setup, _quadratic_setup, _laplacian_setup, kdict2list, _get_theta, kdicts2list, list2kdict.
* `catlearn/regression/gpfunctions/kernels.py`: modelled: constant_kernel, constant_multi_kernel, noise_multi_kernel, gaussian_kernel, gaussian_xx_gradients, gaussian_xxp_gradients, gaussian_dk_dwidth, sqe_kernel, scaled_sqe_kernel, AA_kernel, linear_kernel, quadratic_kernel, laplacian_kernel, laplacian_dk_dwidth; **not** modelled: quadratic_dk_dslope, quadratic_dk_ddegree.
* `catlearn/regression/gpfunctions/log_marginal_likelihood.py`: modelled: log_marginal_likelihood, dK_dtheta_j.
* `catlearn/regression/gpfunctions/sensitivity.py`: modelled: backward_selection, _opt_step, _mean_sensitivity, _get_opt_weights; **not** modelled: _make_predict.
* `catlearn/regression/gpfunctions/uncertainty.py`: modelled: get_uncertainty.
* `catlearn/regression/ridge_regression.py`: modelled: predict, get_coefficients, find_optimal_regularization, regularization, RR, _RR_preSVD, _bootstrap_master, _get_bootstrap_samples, bootstrap_calc, _bootstrap_ERR, _get_samples_svd, _LOOCV_l, _LOOCV.
* `catlearn/regression/scikit_wrapper.py`: modelled: feature_select, _get_coefficients, _ridge, _elast, _lasso.
* `catlearn/utilities/clustering.py`: modelled: cluster_features, _cluster_split.
* `catlearn/utilities/database_functions.py`: modelled: create_db, create_column, fill_db, update_descriptor, query_db, get_column_names, __enter__, __exit__, image_entry, parameter_entry, get_parameters, fingerprint_entry, get_fingerprints; **not** modelled: create_table.
* `catlearn/utilities/distribution.py`: modelled: pair_distribution, pair_deviation, _distance_hist.
* `catlearn/utilities/neighborlist.py`: modelled: ase_neighborlist, catlearn_neighborlist, _neighbor_iterator, ase_connectivity.
* `catlearn/utilities/penalty_functions.py`: modelled: penalty_close, penalty_far.
* `catlearn/utilities/sammon.py`: modelled: sammons_error.
* `catlearn/utilities/utilities.py`: modelled: formal_charges, holdout_set, target_correlation, geometry_hash.

By lines of function definitions, 14949 of 15420 (96%) are covered.

## 5. Assumptions per theorem

From `Print Assumptions` on each theorem of `MANIFEST.json` (the properties files end with these
commands, so that the output also appears in the build). Abbreviations: D =
`ClassicalDedekindReals.sig_forall_dec`, N = `ClassicalDedekindReals.sig_not_dec`, F =
`FunctionalExtensionality.functional_extensionality_dep`, C = `Classical_Prop.classic`. All of them
are axioms of the standard library (they come with `Reals`); there are no others.

### Closed under the global context

* ActiveProperties: acquire_returns_best, acquisition_keeps_partition, acquisition_refuses_bad_start, serial_ensemble_default_subset_partial, serial_ensemble_shares_subset_refuted.
* AdsorbBondProperties: bag_edges_ads_counts, bag_edges_ads_order, bag_edges_all_refuted, bag_edges_chemi_refuted.
* AdsorbProperties: bag_atoms_ads_counts, bag_cn_refuted, fragment_counts.
* ApiProperties: catmap_states_distinct, get_train_drawn, get_unique_drawn, graph_round_trip, neighbor_list_asymmetric, neighbor_list_of_matrix, neighbor_list_symmetric, test_and_training_disjoint.
* AtomsProperties: attached_values, base_dtype, connectivity_stale_refuted, distribution_changes_structure_refuted, graph_cutoffs, graph_cutoffs_refuted, images_connectivity_spec, labels_checked, neighborlist_current, neighborlist_stale_refuted, pair_distances_current, particle_types_refuted, particle_vectors, rate_control_refuted, rdf_lengths_refuted.
* BootProperties: bootstrap_reproducible, bootstrap_reseeds_refuted, regularization_given_refuted.
* CVProperties: compile_split_complete_partial, compile_split_complete_refuted, compile_split_fails_at_multiples, k_fold_features_partition, k_fold_fix_size, k_fold_partition, split_index_always_returns_refuted, split_index_hierarchy, split_index_hierarchy_max, split_index_returns_iff_partial, split_predict_never_tests_on_training_data, split_predict_pairs.
* CatAppProperties: catapp_both_elements, catapp_elements, catapp_names_distinct, catapp_order_partial, catapp_order_refuted, catapp_second_refuted.
* ConvProperties: bulk_labels_partial, bulk_labels_refuted, conv_bulk_labels, conv_term_labels_refuted.
* DBProperties: columns_after_any_history, crash_keeps_prefix, default_symbol_partial, default_symbol_refuted, failed_fill_keeps_old_rows_partial, failed_fill_leaves_rows_refuted, fill_depends_only_on_name_count, fill_ignores_names_refuted, fill_in_table_order_partial, fingerprint_is_first_written, get_fingerprints_ignores_request_order, get_fingerprints_missing_value_refuted, get_fingerprints_request_order_refuted, get_fingerprints_single_id_refuted, get_fingerprints_sorted_partial, query_after_any_history, requested_parameters, stored_value_is_final, successful_calls_survive_crash, update_changes_no_other_cell, with_block_saves_all.
* DbFeatProperties: ads_types, ads_types_order, catapp_name_partial, catapp_name_refuted.
* DimProperties: composition_names, composition_names_refuted, projection, projection_components.
* ElimProperties: feature_invariance_spec, feature_randomize_spec, feature_shuffle_spec, greedy_elimination_crash_during_save_refuted, greedy_elimination_crash_resume, greedy_elimination_faithful, greedy_elimination_list_result_refuted, greedy_elimination_schedule_independent, importance_elimination_faithful, importance_elimination_schedule_independent, importance_metadata_attribution_refuted, importance_metadata_partial, importance_metadata_schedule_refuted.
* FEProperties: pca_duplicates_first_refuted, pca_first_component_partial.
* FeatProperties: bag_edges_cn_counts, bag_edges_cn_order_independent, bag_edges_counts, bag_edges_order_independent, bag_edges_unsorted_types_refuted, bag_element_cn_counts, bag_elements_counts, composition_counts.
* FeatVecProperties: atomic_pairs_rows, default_fingerprinters_partial, default_fragment_refuted, normalize_features_spec, return_vec_empty_refuted, return_vec_errors_refuted, return_vec_rows, return_vec_schedule_independent.
* GAFSProperties: best_fitness_kept, chromosomes_valid, crossover_fails_refuted, crossover_scores, crossover_succeeds, evolution_statistics, first_offspring_refuted, frequencies_meaning, frequencies_missing_refuted, homogeneity_meaning, mutation_keeps_scores_refuted, number_of_combinations, offspring_features, random_genes_distinct, shared_combinations_refuted, stale_scores_refuted, weights_lowered, weights_lowered_refuted.
* GAProperties: candidates_have_a_feature_refuted, candidates_respect_dmax_refuted, cut_and_splice_genes, every_feature_can_be_active_refuted, failed_candidates_never_best_refuted, fitness_ignores_inactive_features, fitness_is_k_fold_cross_validation, fitness_is_mean_over_folds, fitter_more_likely_refuted, ga_best_is_best_ever, ga_best_never_decreases_refuted, ga_best_with_duplicate_removal_partial, ga_population_fitness_paired, ga_population_size_constant, initial_population_well_formed_partial, mutation_respects_dmax_refuted, no_progress_converges_exactly, parallel_fitness_equals_serial, pareto_partially_failed_refuted, pareto_ranks_follow_domination, pareto_search_improves_refuted, pareto_selection_keeps_nondominated_refuted, pareto_transform_always_terminates, population_reduction_keeps_fittest, probability_include_genes, probability_remove_genes, random_permutation_flips_one_gene, removal_respects_dmax_partial, remove_duplicates_first_representatives, remove_include_keep_a_feature_partial, search_stops_exactly, selection_prob_open, stagnation_converges_exactly.
* GPIOProperties: saved_kernels_all_return, saved_kernels_keep_order_partial, saved_kernels_reordered_refuted.
* HashProperties: hash_argument, hash_argument_refuted, hash_elements_partial, hash_elements_refuted, hash_large_refuted, hash_order, hash_python3_refuted, hash_rounding_partial, hash_rounding_refuted, rounding_is_nearest.
* IOProperties: global_data, hierarchy_load_literal, hierarchy_load_refuted, interrupted_save_refuted, k_fold_split_round_trip, saved_generation, split_empty_fold_refuted, split_round_trip, todb_subset, todb_twice_refuted, write_split_no_targets_refuted, write_split_outcome.
* KernMoreProperties: scaled_sqe_refuted.
* KernProperties: quadratic_degree_array_refuted, quadratic_values_read_partial.
* LCProperties: hierarchy_errors_partial, hierarchy_errors_refuted, learning_curve_nested_partial, learning_curve_parallel_order_refuted, learning_curve_parallel_partial, learning_curve_runs_partial, learning_curve_sizes_refuted, learning_curve_zero_step.
* LCVarProperties: default_limit_refuted, feature_frequency_source, features_varied, fixed_features_curve, fixed_features_missing_refuted, fixed_features_none, local_scaling_refuted, selection_from_training_refuted, varying_features_none, varying_features_returns_refuted.
* MagpieProperties: magpie_failed, magpie_stale, proto_fingerprints, proto_formula_partial, proto_formula_refused, proto_formula_refuted, proto_repeated, proto_rows, proto_sites_partial, proto_sites_refuted, voro_files, voro_fingerprints_partial, voro_fingerprints_refuted.
* MaskProperties: apply_mask_rows, mask_is_free_coordinates_partial, mask_overlapping_constraints_refuted, mask_round_trip, mask_two_directions_refuted, unmask_writes.
* NeighborProperties: autocorrelation_pairs.
* PathProperties: array_to_atoms_inverse, force_consistent_default_refuted, get_forces_point_refuted, run_after_convergence_refuted, sequential_start_refuted, starting_path_sequential_refuted, starting_paths.
* PeriodicProperties: bulk_names_refuted, default_params_last, n_outer_counts_partial, n_outer_first_period_refuted, slab_names_distinct.
* PrepProperties: clean_infinite_aligned, clean_infinite_respects_mask, holdout_rows_partition_partial, holdout_targets_refuted, transform_needs_process.
* RidgeProperties: ridge_supplied_regularization_refuted.
* ScreenProperties: elimination_keeps_same_columns.
* SiteFilesProperties: reference_energies_partial, reference_files, site_trajectories_partial, site_trajectories_refuted.
* SiteProperties: select_random_duplicates_refuted, select_random_valid, unique_sites_all.
* SlabUtilProperties: is_metal_complete, is_metal_refuted, is_metal_sound, is_oxide_binary, is_oxide_binary_refuted, is_oxide_order_refuted, is_oxide_sound, stoichiometry_counts.
* SplitProperties: separate_lists, separate_python3_refuted, separate_short.
* SurfProperties: adsorbate_by_bonds, adsorbate_by_formula, adsorbate_by_height, adsorbate_by_last, adsorbate_by_layers, adsorbate_by_symbol, adsorbate_by_tags, adsorbate_composition_refuted, autogen_no_adsorbate_refuted, autogen_no_layers_refuted, autogen_partition, autogen_site_atoms, autogen_supplied_refuted, cations_and_anions, layers_by_constraint, layers_by_number, layers_by_tags, layers_need_slab, layers_with_adsorbate_refuted, reconstruction_sizes, reconstructions_found, termination_info_exchanges, termination_info_refuted.
* UtilProperties: acquisition_cluster_refuted.

### D

* CatAppProperties: catapp_concentration_partial, catapp_concentration_refuted.
* FEProperties: positive_features_degree_zero_refuted, powers_match_labels, products_match_labels.
* LCProperties: interval_window.
* PathProperties: array_to_ase_inverse, ase_to_catlearn_last_refuted, ase_to_catlearn_mixed_refuted, ase_to_catlearn_rows, ase_to_catlearn_single_refuted, eval_point_data, path_results, training_energies_mixed_refuted, training_energies_same.
* PeriodicProperties: formula_coefficients_refuted, formula_one_coefficient_partial, formula_unknown_symbol_refuted, formula_without_coefficients_partial.
* RidgeProperties: ridge_predictions.
* ScreenProperties: correlation_swapped.
* SiteFilesProperties: dataset_round_trip.

### D, F

* AcqProperties: optimistic_max_respects_objective_partial, proximity_prefers_closer, ucb_max_respects_objective_refuted, ucb_min_respects_objective_partial.
* AdsorbBondProperties: en_difference_active_refuted, en_difference_ads_refuted, en_difference_chemi_sum.
* AdsorbProperties: gcn_ads_refuted, gcn_site_refuted, generalized_cn_counts, generalized_cn_order, strain_values.
* ApiProperties: all_neighbor_shells, catmap_default_fails_refuted, catmap_minimum_refuted, catmap_states_partial, neighbor_shell, neighbor_shell_symmetric_partial, neighbor_shell_symmetric_refuted, neighborlist_refuses.
* AtomsProperties: ase_neighborlist_counts, ase_neighborlist_symmetric, connectivity_attached_refuted, connectivity_entries, connectivity_multiple_refuted, graph_edges.
* CatAppProperties: catapp_fingerprint, catapp_site.
* ChargeProperties: formal_charge_features, formal_charges_conserved, formal_charges_order, util_charges_partial, util_charges_refuted.
* DbFeatProperties: database_ids, database_images, mass_order, stored_features.
* ErrorProperties: percentiles_ordered.
* FEProperties: generate_features_complete_partial, generate_features_negative_refuted, generate_features_zero_refuted, generate_inverse_refuted, pca_variance_sums_to_100, positive_features_complete, positive_strings_same_monomials, quotient_columns_partial, quotient_labels_refuted, zero_denominator_partial, zero_denominator_refuted.
* GPIOProperties: hdf5_single_refuted.
* KernMoreProperties: hyperparameters_round_trip.
* KernProperties: bounds_match_hyperparameters, hyperparameters_round_trip_partial, kernel_scaling_round_trip, multi_kernel_shifts_refuted, nonpositive_width_rejected_partial.
* LCProperties: lasso_selection_first, lasso_selection_sets, transform_output_means.
* LCVarProperties: refinement_largest, refinement_sound.
* MLMinProperties: mlmin_walk_stops.
* MLNebProperties: acq5_alternation_refuted, acquisition_as_documented_partial.
* MaskProperties: surrogate_forces.
* NMatProperties: connection_dict_entries, connection_dict_first_shell, connection_dict_shell_refuted, connection_matrix_entries, row_totals, shell_boundary_refuted, shells_cover.
* NebStartProperties: images_of_distance.
* NeighborProperties: autocorrelation_features, autocorrelation_order, neighbor_features_order, neighbor_mean_refuted, neighbor_sum_features.
* ParticleProperties: bond_count_entries, bond_count_features, bond_count_length_refuted, bond_count_order, nearestneighbour_diagonal_refuted, nearestneighbour_partial.
* PathProperties: path_endpoints_refuted, report_barriers, report_first_barriers_refuted, report_rows.
* PeriodicProperties: default_radius_light, default_radius_value, get_radius_first, list_params_empty, list_params_labels, list_params_order_refuted, list_params_succeeds.
* PrepProperties: clean_skewness_aligned, min_max_statistics, normalize_statistics, remove_outliers_dev_one_partial, remove_outliers_ignores_dev_refuted, remove_outliers_keeps_within_one_mad, remove_outliers_removes_constant_refuted, scaling_changes_caller_arrays_refuted, scaling_keeps_caller_arrays_partial.
* RefSlabProperties: reference_atoms, reference_check_refuted, reference_composition_partial, reference_composition_refuted.
* RidgeProperties: ridge_history_partial, ridge_leave_one_out_defined, ridge_minimises, ridge_second_call_mixes, ridge_stale_features_refuted.
* RidgeTradeProperties: ridge_row_order, ridge_tradeoff.
* ScreenProperties: correlation_choice_refuted, feature_select_ranks, iteration_accepts_best_partial, iteration_accepts_best_refuted, iterative_screen_partitions, random_check_few_features_refuted, response_not_orthogonal_refuted, response_orthogonal_partial, response_uses_last_only_refuted, screening_beats_random, screening_keeps_same_columns.
* SiteFilesProperties: emt_stability, reference_energies_refuted.
* SiteProperties: cohesive_energy_errors, cohesive_energy_value, element_order_refuted, extend_keeps_sites, get_site_index_found, site_stability_identity, system_features_order, traj_indices, traj_indices_refuted, update_references, update_site_file_energies, update_site_file_refuted.
* TargetProperties: centred_targets.
* UtilProperties: pair_deviation_counts, positions_refuted, self_pair_refuted.

### D, N, F

* AcqProperties: classify_ignores_classes_refuted, optimistic_min_respects_objective_refuted, rank_float_objective_refuted, rank_scores.
* ApiProperties: penalty_close_value, penalty_far_value, penalty_nonnegative, penalty_of_duplicate.
* BootProperties: bootstrap_estimate, loocv_list_values.
* ConvProperties: bulk_extra_params_refuted, bulk_modulus_refuted, conv_params_refuted, convoluted_features.
* ErrorProperties: error_metrics_consistent, error_statistics, error_symmetric, get_error_lengths, insensitive_error, reported_percentiles.
* FingerProperties: element_mean_refuted, element_sums.
* GPGradProperties: gaussian_branches_agree.
* GPProperties: oracles_exist.
* GenGPProperties: default_lengthscales, units_drop_feature_refuted.
* LCProperties: given_target_scale_kept, global_scaling_partial, global_scaling_refuted, prediction_error_is_rmse, prediction_error_units, scaling_data_reuse, statistics_per_level_partial, statistics_refuted.
* MLMinProperties: convergence_of_last_structure, fmax_is_largest_force, list_atoms_after_step_refuted, list_atoms_at_start_partial, mlmin_acquires_best, mlmin_data_consistent, mlmin_restart_resumes, mlmin_run_consistent, mlmin_start.
* MLNebProperties: default_spring_constant_refuted, extra_point_is_interior_partial, extra_point_three_images_refuted, mlneb_data_consistent, mlneb_run_consistent, mlneb_start, neb_force_of_last_structure, neb_max_forces_not_recorded_refuted, neb_path_at_start, neb_previous_calculations_refuted, neb_previous_calculations_used_partial, number_of_images_kept_partial, passes_acquire_interior, sequential_number_of_images_refuted.
* NMatProperties: bond_features_refuted, feature_blocks, feature_count, features_order.
* NebStartProperties: end_energies_kept, structures_of_one_size.
* NeighborProperties: convolution_first_atoms_partial, convolution_refuted, distance_planar_refuted, distance_reciprocal_refuted, distance_vec_layout.
* PathProperties: train_gp_shift, train_gp_targets, train_gp_width_partial, train_gp_width_refuted.
* PeriodicProperties: bulk_names_partial, property_features, property_features_empty, property_features_order, reduce_spec, surf_ligands_counts.
* PotProperties: noise_scales, potentials_total.
* PrepProperties: all_features_eliminated_refuted, clean_masks_have_no_effect_refuted, clean_variance_aligned, clean_variance_ignores_mask_refuted, clean_variance_removes_constant, process_raises_only_for_no_rows, processed_data_finite_partial, processed_data_finite_refuted, rescale_constant_refuted, rescale_inverts_partial, standardize_statistics, test_rows_scaled_like_training, transform_repeats_process, transform_rowwise, unit_length_rows.
* RidgeProperties: ridge_leave_one_out.
* SlabUtilProperties: slab_layers_oxide_refuted, slab_layers_partition, slab_layers_two_atoms_refuted.
* StandardProperties: processed_columns_standard.
* TargetProperties: equal_targets_undefined, scaled_targets.
* UtilProperties: absent_element_refuted, cluster_optional_refuted, clusters_partition, mic_ignored_refuted, pair_distribution_counts, sammons_error_coincident_refuted, sammons_error_units, sammons_error_value, sammons_error_zero_iff, target_correlation_raw.

### D, N, F, C

* AcqIntegralProperties: ei_pi_are_integrals.
* AcqProperties: ei_respects_objective, pi_respects_objective, probability_density_prefers_closer.
* BootProperties: bootstrap_one_sample_refuted, bootstrap_search, bootstrap_uncovered_refuted, regularization_consistent.
* DimProperties: default_dimensions, default_dimensions_refuted, given_dimensions.
* ErrorProperties: cost_ignores_hyperparameters_refuted.
* FEProperties: ablog_changes_input_refuted, ablog_second_call_differs_refuted, logs_match_labels, transforms_are_defined.
* FingerProperties: coulomb_matrix, eigenspectrum_features.
* FitnessProperties: fitness_feature_units, fitness_target_units, fitness_value.
* GPAverageProperties: repeated_measurements_average.
* GPChainProperties: likelihood_chain, likelihood_of_first, likelihood_of_next.
* GPConstantProperties: constant_kernel_shrinks_mean.
* GPDataProperties: fit_changes_less_than_targets, more_noise_worse_fit, predicted_data_change_nothing.
* GPErrorProperties: repeated_data_divide_noise, similar_points_similar_predictions, uncertainty_bounds_error.
* GPFarProperties: far_from_data.
* GPFarScaledProperties: far_from_scaled_data.
* GPGradProperties: gradient_blocks_are_derivatives_partial, gradient_covariance_positive_definite, gradient_prediction_is_posterior_mean, gradient_training_succeeds, gradients_reproduced, linear_gradient_block_refuted, linear_gradient_covariance_refuted, other_kernels_reject_gradients, product_gradient_block_refuted.
* GPIOProperties: hdf5_bounds_refuted, hdf5_gradient_model_refuted, hdf5_order_matters_refuted, hdf5_round_trip_partial, hdf5_scale_optimizer_refuted, hdf5_scaled_model_partial, hdf5_scaled_model_refuted, saved_without_kernels.
* GPLeaveProperties: leave_one_out.
* GPNextProperties: one_more_observation.
* GPOptProperties: fixed_basis_reproduces_partial, fixed_basis_scaled_refuted, optimized_model_consistent.
* GPOrderProperties: factor_order_irrelevant, kernel_order_irrelevant.
* GPProductProperties: gaussian_product.
* GPProperties: more_data_less_uncertainty, prediction_is_posterior_mean, predictions_pointwise, predictive_variance_bounds, training_order_irrelevant.
* GPRatioProperties: gaussian_signal_to_noise, signal_to_noise.
* GPRidgeProperties: prediction_is_best_linear, prediction_is_best_tradeoff, ridge_is_linear_gp.
* GPScaleProperties: feature_units_invariance, prediction_linear_in_targets, scale_data_is_manual_scaling, target_units_equivariance, training_prediction_matches, uncertainty_with_log_noise_refuted, uncertainty_with_noise_partial, update_default_scale_refuted, update_features_only_refuted, zero_noise_interpolates.
* GPScalingProperties: constant_factor_is_scaling, scalings_add.
* GPSetupProperties: regularization_bounds_used, update_needs_features.
* GPSymProperties: covariance_formula, feature_order_irrelevant, feature_origin_irrelevant, rotation_irrelevant.
* GPUnusedProperties: unused_features_irrelevant.
* GPUpdateProperties: quadratic_update_fails_refuted, stale_covariance_refuted, uncertainty_methods_agree_partial, uncertainty_methods_differ_refuted, uncertainty_methods_scaled_partial, update_history, update_is_retraining_partial.
* GenGPProperties: default_kernel_refuted, dimension_all_refuted, general_gp_units_partial, smooth_general_posterior.
* KernJointProperties: test_covariance_is_training_covariance.
* KernMoreProperties: aa_covariance_partial, aa_covariance_refuted, aa_normalised_refuted, aa_parameters_refuted, sqe_covariance, sqe_is_gaussian_refuted.
* KernMultiProperties: constant_multi_accepted_refuted, constant_multi_semidefinite, linear_gradient_blocks_partial, noise_multi_is_noise, noise_multi_is_regularization.
* KernProperties: accepted_kernel_fails_refuted, accepted_kernels_evaluate_partial, covariance_entrywise, covariance_positive_definite, covariance_positive_semidefinite, kernels_combine_left_to_right, laplacian_scaling_refuted, leading_multiplication_zero_refuted, negative_constant_accepted_refuted, no_scaling_is_one_partial, no_scaling_logscale_refuted, quadratic_degree_ignored_refuted, quadratic_one_feature_partial, scaling_preserves_covariance_partial.
* LmlProperties: covariance_derivatives, features_gradient_refuted, gradient_data_jacobian_refused, laplacian_gradient_stale_refuted, laplacian_gradient_unbound, likelihood_formula, likelihood_gradient, log_space_gradient_refuted, noise_gradient_refuted, noise_gradient_wrong, product_jacobian_refused, scaled_constant_gradient_refuted.
* LogErrorProperties: log_error_below_rmse, log_error_cut, log_error_every_sample_refuted, log_error_is_rms, log_error_no_average.
* MaskProperties: surrogate_force_is_slope.
* MinSurrProperties: documented_fixed_sqe_refuted, documented_sqe_opt_refuted, failed_optimisation_refuted, fixed_kernel_never_changes, surrogate_always_trained, surrogate_hyperparameters, surrogate_shift_invariant, unknown_kernel_stops.
* PathSurrProperties: coincident_path_stops, minimum_surface, path_shift_invariant, path_surface, path_surrogate_trained.
* PotProperties: forces_are_minus_gradient.
* RegFitProperties: default_size_refuted, fit_error_reported_refuted, line_search_fails_iff, line_search_selects, penalties_fall, selection_is_ranked.
* RidgeProperties: ridge_search_minimises.
* ScreenFitProperties: fitted_screen, lasso_screen_fails_refuted.
* SensProperties: backward_selection_floats_refuted, backward_selection_nested_partial, backward_selection_runs_partial, second_selection_reduced_refuted, selection_beyond_features_refuted, sensitivities_nonnegative, sensitivity_not_derivative_refuted.
* ShareProperties: operation_on_own_model, optimizing_one_changes_the_other_refuted, other_lists_do_not_matter, reuse_for_other_features_refuted, shared_list_same_features, shared_list_single_dimension.
* SiteProperties: all_rows_order, cached_features_refuted, features_of_all_sites_refuted, features_of_all_sites_rows, isolated_site, isolated_site_refuted, missing_energy_refuted, refresh_rows, remove_outlier_last_refuted, remove_outlier_normalized_refuted, remove_outlier_one, remove_outlier_two_refuted, second_element_refuted, selected_references_refuted, site_angles_range, site_feature_values, site_features_rows, site_row_labels, site_tables_kept.
