{"id": "C01", "title": "k_fold is an exact, balanced partition with rows and targets kept together", "statement": "k_fold(features, targets, nsplit) returns exactly nsplit feature folds and nsplit target folds; concatenating the folds gives every input (row, target) pair exactly once (multiset equality, so no row is lost, duplicated or re-paired with a foreign target); fold sizes differ by at most one and never increase along the list.", "quantifier": "every feature matrix, target list of the same length, nsplit >= 1 and every outcome of the random shuffle", "why_tests_cant": "The shuffle is random and the sizes that expose off-by-one splits (n mod nsplit) are unbounded; a unit test samples one shuffle and a few sizes.", "anchors": ["catlearn/cross_validation/k_fold_cv.py: k_fold"]}
{"id": "C02", "title": "k_fold with fix_size gives equal, non-overlapping folds or refuses", "statement": "With fix_size=s, k_fold raises exactly when fewer than nsplit*s rows exist; otherwise it returns nsplit folds of exactly s rows each, and the returned rows (with their targets) form a sub-multiset of the input rows.", "quantifier": "every n, nsplit >= 1, s and every shuffle outcome", "why_tests_cant": "Boundary n = nsplit*s and all shuffles cannot be enumerated by tests.", "anchors": ["catlearn/cross_validation/k_fold_cv.py: k_fold"]}
{"id": "C03", "title": "Every level of the hierarchy split is a partition of the selected indices", "statement": "Hierarchy.split_index, when len(index) >= 2*min_split and min_split >= 1, returns subsets such that for every level i that occurs there are exactly 2^i subsets, they are pairwise disjoint, together they are exactly the selected indices, their sizes differ by at most one, and from level 2 on each has at least min_split members.", "quantifier": "every index list without repetitions, min_split, max_split accepted by the assertions, and every outcome of every in-place shuffle", "why_tests_cant": "Depth and number of subsets grow without bound with the data, and each node is reshuffled; tests use a few fixed sizes.", "anchors": ["catlearn/cross_validation/hierarchy_cv.py: Hierarchy.split_index"]}
{"id": "C04", "title": "Hierarchy split always produces a result for the inputs it accepts", "statement": "For every index list that passes the assertion len(index) > min_split, split_index returns (and writes to file) a split containing at least the first two halves.", "quantifier": "every accepted (index list, min_split)", "why_tests_cant": "The silent failure occurs only for min_split < n < 2*min_split, a region tests of typical sizes never enter.", "anchors": ["catlearn/cross_validation/hierarchy_cv.py: Hierarchy.split_index"]}
{"id": "C05", "title": "Hierarchical prediction never evaluates on training data and visits every ordered pair of a level once", "statement": "split_predict calls the prediction function exactly once for each ordered pair of distinct subsets of the same level, and in every call no test index is also a training index.", "quantifier": "every split produced by split_index and every prediction function", "why_tests_cant": "Needs all levels and all pairs of every possible split, not a sample.", "anchors": ["catlearn/cross_validation/hierarchy_cv.py: Hierarchy.split_predict, Hierarchy.split_index"]}
{"id": "C06", "title": "Fetching a subset from the database returns every requested row whatever its size", "statement": "Compiling the data of a subset (get_subset_data / split_predict) of any size, including sizes above the 999-parameter SQL limit, returns each requested row exactly once.", "quantifier": "every table with unique ids and every sub-list of its ids of any length", "why_tests_cant": "The chunking fails only at exact multiples of 999, sizes unit tests do not use.", "anchors": ["catlearn/cross_validation/hierarchy_cv.py: Hierarchy._compile_split, Hierarchy._get_data"]}
{"id": "C07", "title": "Genetic algorithm keeps population and fitness paired through every generation", "statement": "At every point of GeneticAlgorithm.search (single objective), ga.fitness has the same length as ga.population and ga.fitness[i] is the cross-validated score of ga.population[i], for every sequence of selections, operators, duplicate removals and natural selections.", "quantifier": "every fitness function, starting population, random history and number of steps, with or without natural selection and duplicate removal", "why_tests_cant": "A mis-sorted pair only shows up for particular random histories (ties, duplicates); histories are unbounded.", "anchors": ["catlearn/ga/algorithm.py: GeneticAlgorithm.search, _serial_iterator", "catlearn/ga/natural_selection.py"]}
{"id": "C08", "title": "Best fitness of the genetic algorithm never decreases", "statement": "With natural selection on, the best fitness in the population after any generation is at least the best fitness before it, and equals the best fitness ever evaluated so far in the search.", "quantifier": "every fitness function (no NaN), population size >= 1 and random history of any length", "why_tests_cant": "Monotonicity over all random histories and lengths cannot be sampled.", "anchors": ["catlearn/ga/algorithm.py: GeneticAlgorithm.search", "catlearn/ga/natural_selection.py: population_reduction"]}
{"id": "C09", "title": "Natural selection keeps the population at its nominal size and keeps exactly the fittest", "statement": "population_reduction(pop, fit, size) returns min(size, len(pop)) candidates, sorted by decreasing fitness, forming a sub-multiset of the input pairs, and every discarded candidate is no fitter than every kept one; therefore search started with a population of at least population_size keeps exactly population_size candidates after every generation (without duplicate removal).", "quantifier": "every population, fitness list (ties included) and size", "why_tests_cant": "Ties and all sizes; needs all inputs.", "anchors": ["catlearn/ga/natural_selection.py: population_reduction", "catlearn/ga/algorithm.py: search"]}
{"id": "C10", "title": "Duplicate removal leaves one representative per distinct (rounded) fitness", "statement": "remove_duplicates(pop, fit, accuracy) returns pairs taken from the input such that no two share the same rounded fitness, every rounded fitness of the input is represented, and the representative is the first one in the input.", "quantifier": "every population, fitness list and rounding", "why_tests_cant": "Needs all arrangements of repeated values.", "anchors": ["catlearn/ga/natural_selection.py: remove_duplicates"]}
{"id": "C11", "title": "Parallel fitness evaluation equals serial evaluation for every completion order", "statement": "GeneticAlgorithm with nprocs > 1 computes, for every candidate list, exactly the fitness array that the serial path computes, whatever the order in which worker processes complete and whatever order argsort gives to candidates of equal size.", "quantifier": "every candidate list, fitness function and completion order (permutation) of the worker results", "why_tests_cant": "Process schedules cannot be controlled or enumerated in tests.", "anchors": ["catlearn/ga/algorithm.py: _parallel_iterator, _serial_iterator, _cross_validate"]}
{"id": "C12", "title": "Genetic operators preserve the genome", "statement": "cut_and_splice returns a child of the parents' length whose every gene is equal to the gene of one parent at the same position (prefix from the first, suffix from the second, both non-empty); random_permutation flips exactly one gene; probability_include never switches a feature off and probability_remove never switches one on; probability_remove never returns an empty selection; all return the same length and leave the parent unchanged.", "quantifier": "all parents of length >= 2 and all random draws", "why_tests_cant": "All random draws cannot be enumerated.", "anchors": ["catlearn/ga/mating.py: cut_and_splice", "catlearn/ga/mutate.py"]}
{"id": "C13", "title": "Candidates respect the maximum number of active features", "statement": "With dmax set, every candidate created by the search has at most dmax active features.", "quantifier": "every run and every random history", "why_tests_cant": "Violations depend on rare random draws.", "anchors": ["catlearn/ga/algorithm.py: _new_generation", "catlearn/ga/initialize.py", "catlearn/ga/mutate.py", "catlearn/ga/mating.py"]}
{"id": "C14", "title": "Initial population is well formed", "statement": "initialize_population(pop_size, dimension, dmax) returns pop_size boolean-like candidates of the given length, each with at least one and at most min(dimension, dmax) active features, and every feature can be active in some candidate.", "quantifier": "every pop_size, dimension >= 1, dmax >= 1, all random draws", "why_tests_cant": "All draws; a feature that can never be drawn is invisible to an example-based test.", "anchors": ["catlearn/ga/initialize.py: initialize_population"]}
{"id": "C15", "title": "Fitter candidates are more likely to be selected as parents", "statement": "In parent selection the acceptance probability assigned to a candidate does not decrease with its fitness.", "quantifier": "every population and fitness list without ties", "why_tests_cant": "Selection is random: a test sees samples, not the probability assignment.", "anchors": ["catlearn/ga/algorithm.py: _selection"]}
{"id": "C16", "title": "Pareto ranking orders candidates consistently with domination", "statement": "In a multi-objective search the transform terminates and gives every candidate whose objectives are all finite a rank -1, -2, ...; a candidate that is strictly worse than another in all objectives gets a strictly lower rank; rank -1 is given exactly to candidates not strictly dominated by any other.", "quantifier": "every finite list of objective vectors of any dimension >= 1, each candidate evaluated in all objectives or failed in all", "why_tests_cant": "Needs all configurations of points, including ties and chains of arbitrary depth.", "anchors": ["catlearn/ga/algorithm.py: _pareto_transform, _locate_pareto"]}
{"id": "C17", "title": "Candidates whose fitness evaluation failed are never ranked best", "statement": "A candidate whose fitness function failed (all objectives -inf) never receives a better Pareto rank than a candidate that evaluated successfully.", "quantifier": "every list of objective vectors, some of which are -inf", "why_tests_cant": "Failures are rare numerical events (singular matrices) not produced in tests.", "anchors": ["catlearn/ga/algorithm.py: _pareto_transform, _cross_validate"]}
{"id": "C18", "title": "The default convergence check stops exactly after the promised number of stagnant generations", "statement": "Convergence.no_progress(fitness, repeat) called once per generation reports convergence exactly when none of the last repeat+1 calls brought a fitness above everything seen before them, and any improvement restarts the count; stagnation() reports it exactly when the (min, max) pair of the fitness has been the same in the last repeat+2 calls.", "quantifier": "every sequence of fitness lists and every repeat", "why_tests_cant": "Counter off-by-one over arbitrary histories.", "anchors": ["catlearn/ga/convergence.py: Convergence"]}
{"id": "C19", "title": "Greedy elimination produces a faithful elimination order", "statement": "greedy_elimination over T features with step s runs exactly (T-1)//s rounds; each round reports s distinct features not reported before, each with the lowest-ranked mean score of that round; reported features plus survivors are exactly the T features and at least one feature survives.", "quantifier": "every prediction function, data set, T >= 1, s >= 1", "why_tests_cant": "All score patterns including ties, all T and s.", "anchors": ["catlearn/preprocess/greedy_elimination.py: GreedyElimination.greedy_elimination"]}
{"id": "C20", "title": "Greedy elimination resumed from its save file gives the same result as an uninterrupted run", "statement": "For a deterministic prediction function, interrupting greedy_elimination between any two rounds and restarting with the same save_file returns the same list of eliminated features and scores, in the same order, as a run that was never interrupted; this holds for any number of interruptions.", "quantifier": "every crash point (number of completed rounds) and every number of restarts, every T and step", "why_tests_cant": "Crash points multiply; tests exercise at most one.", "anchors": ["catlearn/preprocess/greedy_elimination.py: greedy_elimination, _load_data, _write_data"]}
{"id": "C21", "title": "Elimination results do not depend on the parallel schedule", "statement": "In greedy_elimination and importance_elimination the score table, and hence the features eliminated, is the same for every completion order of the worker pool and equals the serial result.", "quantifier": "every permutation of worker completion, every prediction function", "why_tests_cant": "Schedules cannot be enumerated by tests.", "anchors": ["catlearn/preprocess/greedy_elimination.py: _parallel_iterator, _serial_iterator", "catlearn/preprocess/importance_testing.py"]}
{"id": "C22", "title": "Meta data reported for an eliminated feature belongs to that feature", "statement": "When the prediction function returns extra values, the values importance_elimination reports next to a feature are the cross-validation means obtained when that feature was perturbed.", "quantifier": "every prediction function returning a list, every data set", "why_tests_cant": "Tests check shapes only; attribution needs all orderings of scores.", "anchors": ["catlearn/preprocess/importance_testing.py: importance_elimination", "catlearn/preprocess/greedy_elimination.py: greedy_elimination"]}
{"id": "C23", "title": "Feature perturbation touches only the chosen column and never the caller's data", "statement": "feature_invariance, feature_randomize and feature_shuffle return train and test matrices of the same shape that differ from the input at most in the chosen column; feature_shuffle keeps the multiset of values of that column; the caller's matrices are unchanged.", "quantifier": "every matrix, column and random draw", "why_tests_cant": "All draws and shapes.", "anchors": ["catlearn/preprocess/importance_testing.py: feature_invariance, feature_randomize, feature_shuffle"]}
{"id": "C24", "title": "Active learning keeps train and test sets a partition of the data", "statement": "In every iteration of ActiveLearning's acquisition test the training and test indices are disjoint and together cover the whole data set, the training set only grows, and each iteration moves exactly min(batch_size, remaining) indices, all of which were in the test set.", "quantifier": "every acquisition function outcome, batch size >= 1, initial subset without repetitions, any number of iterations", "why_tests_cant": "All acquisition orders and histories.", "anchors": ["catlearn/active_learning/algorithm.py: test_acquisition, _test_acquisition"]}
{"id": "C25", "title": "Runs of an active learning ensemble are independent", "statement": "In ensemble_test with a user supplied initial_subset and serial execution every run starts from that initial subset, and the caller's list is unchanged afterwards.", "quantifier": "every ensemble size and data set", "why_tests_cant": "The aliasing only shows from the second run on and depends on the process layout.", "anchors": ["catlearn/active_learning/algorithm.py: ensemble_test, _test_acquisition"]}
{"id": "C26", "title": "Acquire returns the best-scoring candidates", "statement": "When the surrogate model returns its candidates ranked by decreasing acquisition value, ActiveLearning.acquire returns the indices of the batch_size best candidates, in decreasing order (all candidates when fewer remain), without repetition.", "quantifier": "every score list, ties included, every batch size", "why_tests_cant": "Ties and sizes.", "anchors": ["catlearn/active_learning/algorithm.py: acquire"]}
{"id": "C27", "title": "Acquisition functions respect the objective", "statement": "For objective 'max' a candidate with a larger predicted value (same uncertainty) never gets a lower acquisition value, and for objective 'min' never a higher one, for UCB, PI, EI and optimistic; all of them are non-decreasing in the uncertainty weight where promised.", "quantifier": "all real predictions, uncertainties > 0, reference values", "why_tests_cant": "Monotonicity over the reals.", "anchors": ["catlearn/active_learning/acquisition_functions.py: UCB, EI, PI, optimistic, proximity"]}
{"id": "C28", "title": "DescriptorDatabase behaves like a table keyed by id", "statement": "After any sequence of create_db/create_column/fill_db/update_descriptor, query_db(id, names) returns for each name the last value updated for that id, or the value given at fill time (first filled row when an id was filled more than once), NULL for columns added later and not updated; updating one descriptor of one id changes no other cell.", "quantifier": "every sequence of operations of any length", "why_tests_cant": "Histories are unbounded; interactions of column creation and updates.", "anchors": ["catlearn/utilities/database_functions.py: DescriptorDatabase"]}
{"id": "C29", "title": "FingerprintDB entries are write-once", "statement": "After any history of image_entry, parameter_entry and fingerprint_entry, the value stored for an (image, parameter) pair is the first one written; later writes for the same pair are ignored and no other pair is affected.", "quantifier": "every sequence of operations", "why_tests_cant": "Unbounded histories.", "anchors": ["catlearn/utilities/database_functions.py: FingerprintDB"]}
{"id": "C30", "title": "get_fingerprints returns one row per requested id, in the requested order", "statement": "FingerprintDB.get_fingerprints(ase_ids, params) returns a matrix whose row i holds the values of ase_ids[i] in the order of params.", "quantifier": "every database content and every non-empty id list", "why_tests_cant": "Ordering depends on the relation between requested and stored order; tests ask in stored order.", "anchors": ["catlearn/utilities/database_functions.py: FingerprintDB.get_fingerprints"]}
{"id": "C31", "title": "Target and feature scaling is invertible with the training statistics", "statement": "ScaleData: rescale_targets(train targets after scaling) returns the original targets; test features are transformed with exactly the statistics of the training features, so a test row equal to a training row is mapped to the same scaled row.", "quantifier": "every training/test data set with non-constant targets", "why_tests_cant": "All reals.", "anchors": ["catlearn/regression/gpfunctions/default_scale.py: ScaleData", "catlearn/preprocess/scaling.py"]}
{"id": "C32", "title": "Standardized, normalised and min-max scaled features have the promised statistics", "statement": "standardize gives every non-constant training column mean 0 and variance 1 and every constant column value 0; normalize gives mean 0 and range exactly 1 for non-constant columns; min_max maps training columns into [0,1] attaining both ends for non-constant ones; unit_length gives every sample (row) Euclidean norm 1 unless all its features are zero.", "quantifier": "every training matrix with at least one row", "why_tests_cant": "All real matrices; constant columns are the corner case.", "anchors": ["catlearn/preprocess/scaling.py: standardize, normalize, min_max, unit_length"]}
{"id": "C33", "title": "Cleaning keeps train, test and labels aligned", "statement": "clean_variance, clean_infinite and clean_skewness drop the same columns from train, test and labels, keep the remaining columns in order with their values unchanged, and keep exactly the columns satisfying the documented criterion (standard deviation not numerically zero by numpy's isclose; all entries finite in the rows whose target is finite, or masked; absolute skewness below the limit).", "quantifier": "every train/test matrix (with missing values) and label list", "why_tests_cant": "All placements of constant / non-finite columns.", "anchors": ["catlearn/preprocess/clean_data.py: clean_variance, clean_infinite, clean_skewness"]}
{"id": "C34", "title": "Outlier removal honours the requested deviation", "statement": "remove_outliers(features, targets, dev) keeps a sample exactly when its target lies within dev median-absolute-deviations of the median; a larger dev never removes more samples, and when nothing is an outlier the data come back unchanged.", "quantifier": "every target list and dev", "why_tests_cant": "Parameter that is silently ignored is only visible by comparing all dev values.", "anchors": ["catlearn/preprocess/clean_data.py: remove_outliers"]}
{"id": "C35", "title": "The general preprocessor transforms new data exactly as it transformed the training data", "statement": "After GeneralPrepreprocess.process, transform(X) selects the same columns and applies the same mean/scale as used for the training data: transform(train) equals the processed training data and transform(test) equals the processed test data.", "quantifier": "every train/test pair for which process succeeds", "why_tests_cant": "All data sets.", "anchors": ["catlearn/estimator/general_preprocess.py: GeneralPrepreprocess"]}
{"id": "C36", "title": "Polynomial feature engineering keeps columns and labels aligned", "statement": "get_order_2 returns m(m+1)/2 columns and column c is the product named by label c; get_div_order_2 returns the ratio named by label c for every c.", "quantifier": "every matrix and label list of any width m", "why_tests_cant": "Alignment for all m.", "anchors": ["catlearn/preprocess/feature_engineering.py: get_order_2, get_labels_order_2, get_div_order_2"]}
{"id": "C37", "title": "Monomial generation is complete and free of repetitions", "statement": "generate_positive_features(p, N) returns every monomial of total degree at most N in the inputs exactly once (C(n+N, N) of them, one fewer when exclude=True) evaluated at the inputs.", "quantifier": "every list of n distinct symbols and N >= 0", "why_tests_cant": "Combinatorial completeness for all n, N.", "anchors": ["catlearn/preprocess/feature_engineering.py: generate_positive_features, generate_features, _decode_key"]}
{"id": "C38", "title": "PCA returns the leading principal components", "statement": "catlearn_pca(components=k) projects on the k eigenvectors of largest eigenvalue, each used once.", "quantifier": "every data set and k >= 2", "why_tests_cant": "Tests only check shapes.", "anchors": ["catlearn/preprocess/feature_extraction.py: catlearn_pca"]}
{"id": "C39", "title": "Feature screening removes the same columns from train and test", "statement": "FeatureScreening's eliminate step removes the same set of columns from the train and test matrices keeping the order of the others; the columns kept are the first `size` features of the importance order, with or without the random check.", "quantifier": "every matrix, correlation choice, importance order and size", "why_tests_cant": "Misaligned columns still have plausible shapes.", "anchors": ["catlearn/preprocess/feature_elimination.py: FeatureScreening"]}
{"id": "C40", "title": "holdout_set splits data consistently", "statement": "holdout_set(data, fraction, target) returns train and test rows partitioning the data, each row with its own target, and target lists of the matching lengths.", "quantifier": "every data set, fraction and shuffle", "why_tests_cant": "Random shuffle and misalignment are invisible to shape tests with symmetric sizes.", "anchors": ["catlearn/utilities/utilities.py: holdout_set"]}
{"id": "C41", "title": "Kernel hyperparameters survive the round trip to the optimizer's flat list", "statement": "For every kernel list, flattening the hyperparameters and writing them back (the path taken by hyperparameter optimisation) returns the same kernel list, and the flat list has exactly as many entries as bounds are generated.", "quantifier": "every list of kernels of every supported type in every order", "why_tests_cant": "All kernel combinations and orders.", "anchors": ["catlearn/regression/gpfunctions/kernel_setup.py: prepare_kernels, kdicts2list, list2kdict"]}
{"id": "C42", "title": "Training covariance matrices are symmetric positive semidefinite, and positive definite with noise", "statement": "For every training set and kernel list made of gaussian, laplacian, linear, quadratic and constant kernels combined by addition and multiplication (first kernel additive), get_covariance(matrix1) is symmetric positive semidefinite, and with non-zero regularization positive definite, hence invertible.", "quantifier": "every training set of any size and dimension; every non-negative hyperparameter value, and every real value when hyperparameters are log-scaled", "why_tests_cant": "Positive definiteness over all data sets is exactly what sampling cannot show.", "anchors": ["catlearn/regression/gpfunctions/covariance.py: get_covariance", "catlearn/regression/gpfunctions/kernels.py"]}
{"id": "C43", "title": "Predictive variance is never negative and never exceeds the prior", "statement": "For every such kernel list, training set, non-zero regularization and test point, the quantity under the square root in the predicted uncertainty is between 0 and the prior variance, and adding a training point never increases it.", "quantifier": "every training set, test point, hyperparameters", "why_tests_cant": "Over all reals and sizes.", "anchors": ["catlearn/regression/gpfunctions/uncertainty.py: get_uncertainty", "catlearn/regression/gaussian_process.py: predict"]}
{"id": "C44", "title": "Predictions do not depend on the order of the training data", "statement": "Permuting training rows together with their targets leaves every prediction, uncertainty and log marginal likelihood unchanged.", "quantifier": "every permutation, training set, test set, kernel", "why_tests_cant": "All permutations.", "anchors": ["catlearn/regression/gaussian_process.py: predict, _make_prediction", "catlearn/regression/gpfunctions/log_marginal_likelihood.py"]}
{"id": "C45", "title": "Gradient covariance blocks are the derivatives of the kernel", "statement": "With eval_gradients, the gaussian, linear, quadratic and constant kernel covariance blocks contain the first and mixed second partial derivatives of the kernel function, and the two implementations used for few (<= 30) and many features agree.", "quantifier": "every pair of points in every dimension", "why_tests_cant": "Derivative identities over the reals, all dimensions.", "anchors": ["catlearn/regression/gpfunctions/kernels.py: gaussian_xx_gradients, gaussian_xxp_gradients, linear_kernel, constant_kernel"]}
{"id": "C46", "title": "All ways of asking a trained Gaussian process for uncertainty agree", "statement": "predict(test, uncertainty=True)['uncertainty'] and predict_uncertainty(test)['uncertainty'] return the same values, and after update_data/update_gp predictions equal those of a Gaussian process trained from scratch on the new data and settings.", "quantifier": "every model configuration and update history", "why_tests_cant": "Combination of options and histories.", "anchors": ["catlearn/regression/gaussian_process.py: predict, predict_uncertainty, update_data, update_gp"]}
{"id": "C47", "title": "The analytic gradient of the log marginal likelihood is the derivative of its value", "statement": "The gradient handed to the optimizer equals the partial derivatives of the returned likelihood with respect to each hyperparameter, including the noise.", "quantifier": "every kernel list, data set, hyperparameter vector", "why_tests_cant": "Identity over all reals.", "anchors": ["catlearn/regression/gpfunctions/log_marginal_likelihood.py: log_marginal_likelihood, dK_dtheta_j"]}
{"id": "C48", "title": "A model written to file and read back predicts the same", "statement": "write(model, ext='hdf5') followed by read returns a model with the same kernels in the same order, regularization and training data.", "quantifier": "every kernel list of any length", "why_tests_cant": "Depends on number of kernels (lexicographic order of keys).", "anchors": ["catlearn/regression/gpfunctions/io.py: write, read, _kernel_list_to_group, _load_kernel_list_from_group"]}
{"id": "C49", "title": "Ridge regression solves the regularised least squares problem", "statement": "get_coefficients with regularization returns the unique minimiser of |y - Xb|^2 + w|b|^2 for the data passed in that call, and the regularization passed by the user is the one used.", "quantifier": "every X, y, w > 0, and every history of previous calls on the same object", "why_tests_cant": "All matrices and call histories.", "anchors": ["catlearn/regression/ridge_regression.py: RidgeRegression.RR, get_coefficients, find_optimal_regularization"]}
{"id": "C50", "title": "Error metrics are consistent", "statement": "get_error raises when prediction and target lengths differ and otherwise reports residual statistics satisfying 0 <= MAE <= RMSE <= max error, signed mean within [-MAE, MAE]; all are zero iff prediction equals target.", "quantifier": "all real vectors of equal length >= 1", "why_tests_cant": "Over the reals.", "anchors": ["catlearn/regression/cost_function.py: get_error, _cost_function"]}
{"id": "C51", "title": "Forces of the model potentials are exact negative gradients of their energies", "statement": "For MultiModal, MullerBrown, GoldsteinPrice, Himmelblau, ModifiedHimmelblau and Rosenbrock calculators the returned forces are minus the partial derivatives of the returned energy with respect to the first atom's x and y, and zero in all other components.", "quantifier": "every atomic position", "why_tests_cant": "Identity of real functions.", "anchors": ["catlearn/optimize/functions_calc.py"]}
{"id": "C52", "title": "Masking of constrained coordinates is lossless", "statement": "The coordinates passed to the surrogate are exactly the unconstrained ones in order; writing masked coordinates back restores the geometry, leaving constrained coordinates untouched; a surrogate force calculation reports zero force on constrained coordinates.", "quantifier": "every geometry and every set of constraints", "why_tests_cant": "All constraint patterns.", "anchors": ["catlearn/optimize/constraints.py: create_mask, apply_mask, unmask_geometry", "catlearn/optimize/mlneb.py: ASECalc.calculate"]}
{"id": "C53", "title": "Surrogate optimisation keeps its training data consistent", "statement": "At every step of MLMin.run and MLNEB.run the lists of training points, energies and gradients have equal length and entry i of each belongs to the same evaluated structure; each iteration performs exactly one calculation; MLMin stops at the first evaluation with max force below fmax, MLNEB at the first with max force not above fmax, the full number of images and all uncertainties of the path below unc_convergence; otherwise they stop when the number of iterations has reached `steps` (after at least one).", "quantifier": "every calculator, surrogate behaviour and number of steps", "why_tests_cant": "All histories.", "anchors": ["catlearn/optimize/mlmin.py: MLMin.run, converged, get_fmax", "catlearn/optimize/mlneb.py: MLNEB.run, eval_and_append"]}
{"id": "C54", "title": "Restarting a minimisation neither loses nor duplicates evaluated structures", "statement": "MLMin(..., prev_calculations or restart) trains on the initial structure plus every previous structure with a geometry not already present, each exactly once, and the trajectory file rewritten at start contains exactly these.", "quantifier": "every list of previous structures", "why_tests_cant": "All duplicate patterns.", "anchors": ["catlearn/optimize/mlmin.py: MLMin.__init__"]}
{"id": "C55", "title": "ML-NEB evaluates an interior image as its first extra point", "statement": "When only the end points are known, the additional structure evaluated before the first surrogate is an interior image of the path, and every later acquired structure is an interior image of the current path chosen as documented for the acquisition function.", "quantifier": "every number of images >= 3, end point energies, iteration", "why_tests_cant": "Boundary number of images.", "anchors": ["catlearn/optimize/mlneb.py: MLNEB.run, create_ml_neb"]}
{"id": "C56", "title": "A learning curve uses nested training subsets of the requested sizes", "statement": "LearningCurve.run trains on increasing subsets whose sizes start at min_data and increase by step, in order, for serial and parallel execution.", "quantifier": "every data size, step, min_data, and completion order", "why_tests_cant": "Boundary x=0 and parallel schedules.", "anchors": ["catlearn/learning_curve/learning_curve.py: LearningCurve.run, _single_test"]}
{"id": "C57", "title": "Train and unique test sets drawn from atoms are disjoint", "statement": "get_unique(atoms, size, key) returns min(size, n) distinct structures with their own target values, and get_train(atoms, key, size, taken=test['taken']) returns structures none of which is in the test set, min(size, n - |taken|) of them, each with its own target.", "quantifier": "every list of structures, size and shuffle", "why_tests_cant": "Random shuffles.", "anchors": ["catlearn/api/ase_data_setup.py: get_unique, get_train"]}
{"id": "C58", "title": "The CatMAP energy landscape keeps the most stable structure per state", "statement": "catmap_energy_landscape keeps, for each surface state, the minimum predicted formation energy together with the uncertainty and id of the structure attaining it.", "quantifier": "every list of predictions and states", "why_tests_cant": "Needs several structures of one state in all orders.", "anchors": ["catlearn/api/catmap.py: catmap_energy_landscape"]}
{"id": "C59", "title": "Neighbour lists from connectivity matrices are symmetric and irreflexive", "statement": "matrix_to_nl lists j as neighbour of i exactly when the matrix has a 1 at (i, j), i != j, and j is a neighbour of i iff i is a neighbour of j.", "quantifier": "every symmetric matrix", "why_tests_cant": "All matrices.", "anchors": ["catlearn/api/networkx_graph_api.py: matrix_to_nl"]}
{"id": "C60", "title": "Distance-based neighbour shells are symmetric", "statement": "catlearn_neighborlist assigns to the pair (i, j) the same shell as to (j, i), 0 to (i, i), and every pair within range exactly one shell.", "quantifier": "every set of positions, radii and buffers, any shell limit", "why_tests_cant": "Heterogeneous radii.", "anchors": ["catlearn/utilities/neighborlist.py: catlearn_neighborlist, _neighbor_iterator"]}
{"id": "C61", "title": "Bag fingerprints do not depend on the order of atoms and count everything once", "statement": "composition_vec, bag_elements, bag_edges and bag_element_cn are unchanged when atoms (with connectivity) are relabelled; their entries sum to the number of atoms (respectively bonds); and the number of values equals the number of feature names.", "quantifier": "every structure, permutation and set of element types containing those present", "why_tests_cant": "All permutations and structures.", "anchors": ["catlearn/fingerprint/standard.py: composition_vec, bag_elements, bag_edges, bag_element_cn"]}
{"id": "C62", "title": "Feature matrices have one aligned row per structure and one column per feature name", "statement": "return_vec(candidates, generators) has row i equal to the concatenation of the generators' outputs for candidate i, independent of nprocs, and with generators that are label-consistent the number of columns equals the number of names from return_names.", "quantifier": "every candidate list and generator list", "why_tests_cant": "All combinations and schedules.", "anchors": ["catlearn/featurize/setup.py: FeatureGenerator.return_vec, return_names, _concatenate_vec"]}
{"id": "C63", "title": "Element parameter features report the sum and mean over atoms", "statement": "element_parameter_vec returns per element the summed parameter, then the sum over all atoms and the mean over all atoms.", "quantifier": "every composition", "why_tests_cant": "The mean's denominator is wrong for all compositions; tests compare lengths only.", "anchors": ["catlearn/fingerprint/standard.py: element_parameter_vec"]}
{"id": "C64", "title": "Penalty functions vanish outside and grow quadratically inside the critical range", "statement": "penalty_close returns for each test point 0 if its Euclidean distance d to the nearest training point is at least d_min_crit and c_min_crit*(d-d_min_crit)^2 otherwise; penalty_far likewise for distances beyond d_max_crit; with c >= 0 both are non-negative, and a copy of a training point gets c_min_crit*d_min_crit^2.", "quantifier": "all distances and parameters", "why_tests_cant": "Over the reals.", "anchors": ["catlearn/utilities/penalty_functions.py: PenaltyFunctions"]}
{"id": "C65", "title": "Feature selection by regression coefficients ranks and partitions the features", "statement": "RegressionFit.feature_select(size) returns accepted and rejected index lists that partition all features, with |accepted| = min(size, n), every accepted coefficient at least as large in magnitude as every rejected one.", "quantifier": "every coefficient vector and size", "why_tests_cant": "Ties and sizes.", "anchors": ["catlearn/regression/scikit_wrapper.py: RegressionFit.feature_select"]}
{"id": "C66", "title": "Multi-objective search can improve its population", "statement": "In a multi-objective search, natural selection never discards an offspring while keeping a candidate that is strictly worse than it in all objectives; in particular a population can be improved by better offspring.", "quantifier": "every population, offspring list and objective values", "why_tests_cant": "Ranks of different generations are relative to different populations; only the comparison over all populations shows the search is frozen once every member has rank -1.", "anchors": ["catlearn/ga/algorithm.py: GeneticAlgorithm.search, _pareto_transform", "catlearn/ga/natural_selection.py: population_reduction"]}
{"id": "C67", "title": "Fitness of a candidate is a proper k-fold cross validation on its active features", "statement": "When a candidate is scored, every data point is held out exactly once, training and held-out data of each fold together are the whole data set, and the score depends on the features only through the columns that are active in the candidate.", "quantifier": "every data set, number of splits, candidate mask and fitness function", "why_tests_cant": "Leakage between train and test data or from inactive columns shows up only as a slightly wrong number.", "anchors": ["catlearn/ga/algorithm.py: _cross_validate"]}
{"id": "C68", "title": "No candidate without any active feature is evaluated", "statement": "Every candidate produced during the search has at least one active feature.", "quantifier": "every parent, operator and random draw", "why_tests_cant": "Requires an unlucky draw; tests with few generations do not hit it.", "anchors": ["catlearn/ga/mutate.py", "catlearn/ga/mating.py", "catlearn/ga/algorithm.py: _new_generation"]}
{"id": "C69", "title": "Greedy elimination accepts list-valued prediction functions", "statement": "As documented, predict may return a list of floats whose first value is the score; greedy_elimination then reports the eliminated features with the scores and the averaged extra values.", "quantifier": "every data set, list-returning predict, number of features above step", "why_tests_cant": "Whether any list length works is a question about all of them.", "anchors": ["catlearn/preprocess/greedy_elimination.py: greedy_elimination, _single_elimination"]}
{"id": "C70", "title": "Progress saved by greedy elimination survives a crash at any moment", "statement": "If the process is killed at any moment, including while the save file is being written, a later run with the same save_file resumes from the last completed save.", "quantifier": "every crash point, including inside the write", "why_tests_cant": "Tests cannot kill the process at every instruction of a write.", "anchors": ["catlearn/preprocess/greedy_elimination.py: _write_data, _load_data"]}
{"id": "C71", "title": "rank accepts a float objective", "statement": "As documented for rank/classify, a float objective makes every requested acquisition function score the candidates relative to that value.", "quantifier": "every float objective, metric, prediction and uncertainty", "why_tests_cant": "Whether any value works is a question about all of them.", "anchors": ["catlearn/active_learning/acquisition_functions.py: rank, UCB, EI, PI"]}
{"id": "C72", "title": "classify scores candidates relative to their own class", "statement": "classify scores each test candidate against the best known target of the class it belongs to.", "quantifier": "every classifier, target list and candidate list", "why_tests_cant": "Shows only when classes have different best targets.", "anchors": ["catlearn/active_learning/acquisition_functions.py: classify"]}
{"id": "C73", "title": "fill_db stores each value under the descriptor name it was given for", "statement": "DescriptorDatabase.fill_db(descriptor_names, data): afterwards query_db(id, [name]) returns the value that the data row of id holds at the position of name in descriptor_names.", "quantifier": "every table layout, every order of descriptor_names and every data row", "why_tests_cant": "Tests pass the names in table order; the claim is about all orders.", "anchors": ["catlearn/utilities/database_functions.py: DescriptorDatabase.fill_db"]}
{"id": "C74", "title": "Successful DescriptorDatabase calls survive a crash", "statement": "If every create_db/create_column/fill_db/update_descriptor call so far returned normally, killing the process loses none of their effects.", "quantifier": "every history of successful calls and every crash point between calls", "why_tests_cant": "Crash points and histories are unbounded.", "anchors": ["catlearn/utilities/database_functions.py: DescriptorDatabase"]}
{"id": "C75", "title": "fill_db is all or nothing", "statement": "A fill_db call that raises leaves the table as it was before the call.", "quantifier": "every table and every data list containing a malformed row", "why_tests_cant": "Depends on where in the data the malformed row stands and on what happens next.", "anchors": ["catlearn/utilities/database_functions.py: DescriptorDatabase.fill_db"]}
{"id": "C76", "title": "A FingerprintDB with-block saves everything on exit and a crash leaves a prefix", "statement": "Leaving the with-block, normally or through an exception, stores the effect of all calls made so far; if the process is killed inside the block the file holds the effect of a prefix of the calls, including everything up to the last successful parameter_entry.", "quantifier": "every call sequence, every exception position and every crash point", "why_tests_cant": "Quantifies over crash points and call sequences.", "anchors": ["catlearn/utilities/database_functions.py: FingerprintDB.__enter__, __exit__, parameter_entry"]}
{"id": "C77", "title": "A parameter entered without a symbol gets its own id as symbol", "statement": "parameter_entry(symbol=None) adds a parameter whose symbol is its id as a string.", "quantifier": "every history of parameter entries", "why_tests_cant": "Depends on which symbols and ids are in use.", "anchors": ["catlearn/utilities/database_functions.py: FingerprintDB.parameter_entry"]}
{"id": "C78", "title": "Masked features are never removed by cleaning", "statement": "Every feature index listed in the mask argument of clean_variance, clean_infinite and clean_skewness is still present in the cleaned data.", "quantifier": "all matrices with non-finite entries, all masks", "why_tests_cant": "depends on the interplay of mask and data; the test-suite never passes a mask", "anchors": ["catlearn/preprocess/clean_data.py: clean_variance, clean_infinite, clean_skewness"]}
{"id": "C79", "title": "Preprocessing fails loudly when it eliminates every feature", "statement": "GeneralPrepreprocess.process raises AssertionError when no feature column survives cleaning, instead of returning an empty feature matrix.", "quantifier": "all training matrices in which no column survives", "why_tests_cant": "tests use data with informative columns only", "anchors": ["catlearn/estimator/general_preprocess.py: GeneralPrepreprocess._eliminate_cleaner"]}
{"id": "C80", "title": "Preprocessed training data contain only finite numbers", "statement": "Whatever NaN or infinite entries the training features and targets hold, every entry of the processed training feature matrix is finite.", "quantifier": "all training matrices and targets with non-finite entries", "why_tests_cant": "needs every pattern of missing values", "anchors": ["catlearn/estimator/general_preprocess.py: GeneralPrepreprocess.process"]}
{"id": "C81", "title": "Scaling functions leave the caller's arrays unchanged", "statement": "standardize and normalize do not modify the mean, std or dif arrays passed by the caller.", "quantifier": "all arrays of statistics", "why_tests_cant": "aliasing is only visible for statistics containing a zero", "anchors": ["catlearn/preprocess/scaling.py: standardize, normalize"]}
{"id": "C82", "title": "Square roots and logarithms of features are always defined", "statement": "single_transform never takes the square root of a negative number or the logarithm of a non-positive one, for any real feature values; the shift that guarantees it is the same for the whole column, so it keeps the order of the entries.", "quantifier": "all feature matrices", "why_tests_cant": "Depends on the smallest value of every column.", "anchors": ["catlearn/preprocess/feature_engineering.py: single_transform"]}
{"id": "C83", "title": "Feature engineering leaves the caller's matrix unchanged", "statement": "get_ablog does not modify the feature matrix it is given, so a second call with the same arguments returns the same columns.", "quantifier": "all feature matrices and exponents", "why_tests_cant": "Aliasing shows only for columns containing a value below one.", "anchors": ["catlearn/preprocess/feature_engineering.py: get_ablog"]}
{"id": "C84", "title": "generate_features yields every ratio of coprime monomials exactly once", "statement": "generate_features(p, max_num, max_den) contains, exactly once, the value of every quotient of a monomial of degree at most max_num by one of degree at most max_den that share no feature, and nothing else.", "quantifier": "all feature vectors, degrees and the exclude option", "why_tests_cant": "Ranges over all degrees and signs of the features.", "anchors": ["catlearn/preprocess/feature_engineering.py: generate_features"]}
{"id": "C85", "title": "Quotient features report a zero denominator as infinity", "statement": "get_div_order_2 gives the infinity marker wherever the denominator is zero, never an undefined number.", "quantifier": "all pairs of feature columns", "why_tests_cant": "Depends on zeros in both columns of a pair.", "anchors": ["catlearn/preprocess/feature_engineering.py: get_div_order_2"]}
{"id": "C86", "title": "Power and logarithm combinations are aligned with their labels", "statement": "Column k of get_order_2ab (get_ablog) is x_i^a x_j^b (a log x_i + b log x_j) of the features i, j that label k of get_labels_order_2ab (get_labels_ablog) names, and every unordered pair of features occurs exactly once.", "quantifier": "all feature matrices, labels and exponents", "why_tests_cant": "Concerns every number of features.", "anchors": ["catlearn/preprocess/feature_engineering.py: get_order_2ab, get_labels_order_2ab, get_ablog, get_labels_ablog"]}
{"id": "C87", "title": "Explained variance percentages of PCA add up to 100", "statement": "The explained-variance percentages computed by catlearn_pca are non-negative, do not increase from one component to the next, and add up to 100 whenever the data has any variance.", "quantifier": "all spectra of the covariance matrix", "why_tests_cant": "Ranges over all data sets.", "anchors": ["catlearn/preprocess/feature_extraction.py: catlearn_pca"]}
{"id": "C88", "title": "The random check keeps only features that beat the random ones", "statement": "With random_check=True, every feature kept by screen is a real feature whose correlation with the target is at least as large in magnitude as that of every random feature, and a feature is dropped only if size reaches the number of data points or some random feature correlates at least as well.", "quantifier": "all feature matrices, targets, random draws and correlation values", "why_tests_cant": "Quantifies over the random columns drawn.", "anchors": ["catlearn/preprocess/feature_elimination.py: FeatureScreening.screen, _set_index, _random_extend"]}
{"id": "C89", "title": "The random check works for any number of features", "statement": "Screening with random_check=True succeeds on every feature matrix large enough for the requested size.", "quantifier": "all feature counts", "why_tests_cant": "Depends on the rounding of ten per cent of the number of features.", "anchors": ["catlearn/preprocess/feature_elimination.py: FeatureScreening._set_index, _random_extend"]}
{"id": "C90", "title": "Iterative screening ends and returns every feature exactly once", "statement": "iterative_screen ends after at most `size` rounds; the returned order lists every feature exactly once, and it accepts exactly `size` features, or at most `size` when the random check is on.", "quantifier": "all matrices with more than 2*size features, 1 <= step < size, all correlation and regression outcomes", "why_tests_cant": "Concerns every sequence of regression outcomes.", "anchors": ["catlearn/preprocess/feature_elimination.py: FeatureScreening.iterative_screen, _iterator"]}
{"id": "C91", "title": "Iterative screening accepts the features the regression found most important", "statement": "In each round the accepted features are those, among the screened ones, with the largest regression coefficients in magnitude.", "quantifier": "all matrices, correlations and regression outcomes", "why_tests_cant": "The index lookup is only wrong when the correlation order differs from the column order.", "anchors": ["catlearn/preprocess/feature_elimination.py: FeatureScreening._iterator"]}
{"id": "C92", "title": "The response of a remaining feature is uncorrelated with the accepted ones", "statement": "The columns returned by _get_response, which drive the next screening round, are orthogonal to every accepted feature.", "quantifier": "all feature matrices and accepted sets", "why_tests_cant": "Needs several accepted features of arbitrary norm.", "anchors": ["catlearn/preprocess/feature_elimination.py: FeatureScreening._get_response"]}
{"id": "C93", "title": "Screening uses the requested correlation coefficient", "statement": "correlation='pearson' ranks features with the Pearson coefficient, 'spearman' with Spearman's and 'kendall' with Kendall's.", "quantifier": "all matrices and the three choices", "why_tests_cant": "A silent swap of statistics yields plausible numbers.", "anchors": ["catlearn/preprocess/feature_elimination.py: FeatureScreening._get_correlation"]}
{"id": "C94", "title": "Hyperparameter bounds line up with the hyperparameters", "statement": "prepare_kernels returns exactly one bound per hyperparameter, in the order in which the hyperparameters are handed to the optimizer, followed by the bound of the regularization.", "quantifier": "every list of supported kernels, every feature subset, dimension and default", "why_tests_cant": "A shift by one silently bounds the wrong parameter; all combinations of kernels matter.", "anchors": ["catlearn/regression/gpfunctions/kernel_setup.py: prepare_kernels, kdicts2list"]}
{"id": "C95", "title": "Scaling kernel hyperparameters is undone by rescaling them", "statement": "kernel_scaling followed by kernel_scaling with the opposite rescale flag returns the original kernel list.", "quantifier": "every kernel list of the supported types, every scaling with non-zero deviations", "why_tests_cant": "All kernels, feature subsets and scale factors.", "anchors": ["catlearn/regression/gpfunctions/kernel_scaling.py: kernel_scaling"]}
{"id": "C96", "title": "Scaled kernels on standardized features give the original covariance", "statement": "Standardizing the features and scaling the kernels accordingly leaves every covariance unchanged.", "quantifier": "all data sets, means, non-zero deviations and kernel lists", "why_tests_cant": "Identity over the reals for all data.", "anchors": ["catlearn/regression/gpfunctions/kernel_scaling.py: kernel_scaling", "catlearn/regression/gpfunctions/covariance.py: get_covariance"]}
{"id": "C97", "title": "The quadratic kernel uses every slope and the degree", "statement": "The quadratic kernel divides feature d by slope d and uses the 'degree' the user supplied.", "quantifier": "all slopes, degrees and numbers of features", "why_tests_cant": "The outputs look plausible whichever numbers are used.", "anchors": ["catlearn/regression/gpfunctions/kernels.py: quadratic_kernel", "catlearn/regression/gpfunctions/kernel_setup.py: _get_theta"]}
{"id": "C98", "title": "A kernel without 'scaling' has prefactor one", "statement": "Leaving out 'scaling' is the same as a prefactor of 1.", "quantifier": "every kernel, data set and both settings of log_scale", "why_tests_cant": "Both parameterizations, all data.", "anchors": ["catlearn/regression/gpfunctions/covariance.py: get_covariance"]}
{"id": "C99", "title": "Kernels accepted by the setup can be evaluated", "statement": "Every kernel list for which prepare_kernels succeeds yields a covariance matrix of the right shape for every data set with that number of features.", "quantifier": "every accepted kernel list and every data set", "why_tests_cant": "All combinations of keys.", "anchors": ["catlearn/regression/gpfunctions/kernel_setup.py: prepare_kernels", "catlearn/regression/gpfunctions/covariance.py: get_covariance"]}
{"id": "C100", "title": "Kernel setup rejects hyperparameters that make the covariance indefinite", "statement": "prepare_kernels raises for hyperparameters with which the covariance matrix is not positive semidefinite.", "quantifier": "every kernel type and hyperparameter value", "why_tests_cant": "Sign conditions over all reals.", "anchors": ["catlearn/regression/gpfunctions/kernel_setup.py: prepare_kernels"]}
{"id": "C101", "title": "A covariance entry depends on its two points only", "statement": "Entry (i, j) of a training or test covariance matrix equals the covariance of points i and j evaluated alone, so batching, adding or removing other points never changes it.", "quantifier": "every kernel list, training and test set", "why_tests_cant": "All batch compositions; training and test matrices are computed by different code paths (pdist with filled diagonal versus cdist).", "anchors": ["catlearn/regression/gpfunctions/covariance.py: get_covariance", "catlearn/regression/gpfunctions/kernels.py"]}
{"id": "C102", "title": "Kernel operations combine from left to right", "statement": "A kernel list denotes the sum or product of its kernels from left to right, and a single kernel means the same whichever operation it is labelled with.", "quantifier": "every kernel list and data set", "why_tests_cant": "All combinations of operations.", "anchors": ["catlearn/regression/gpfunctions/covariance.py: get_covariance"]}
{"id": "C103", "title": "A Gaussian process prediction is the posterior mean", "statement": "The prediction at each test point is the sum over training points of the covariance with that point times the unique weight vector that solves (K + noise) w = targets.", "quantifier": "every kernel list, training set, regularization and test set", "why_tests_cant": "Identity over all real matrices of all sizes.", "anchors": ["catlearn/regression/gaussian_process.py: GaussianProcess.predict, _make_prediction"]}
{"id": "C104", "title": "Predictions of a batch equal predictions one at a time", "statement": "Prediction and uncertainty of each test point are those obtained when the point is predicted alone; other points in the batch have no influence.", "quantifier": "every trained model and batch of test points", "why_tests_cant": "All batch compositions.", "anchors": ["catlearn/regression/gaussian_process.py: GaussianProcess.predict", "catlearn/regression/gpfunctions/uncertainty.py: get_uncertainty"]}
{"id": "C105", "title": "Only the last update matters", "statement": "After any sequence of update_data calls that pass the model's own scale_optimizer setting and succeed, the model equals one trained from scratch on the data of the last call.", "quantifier": "every update history", "why_tests_cant": "Unbounded histories.", "anchors": ["catlearn/regression/gaussian_process.py: update_data, update_gp"]}
{"id": "C106", "title": "scale_data is scaling by hand", "statement": "A model created with scale_data=True predicts what a model trained on hand-standardized features and targets predicts, transformed back to the original units, uncertainties included.", "quantifier": "every training set, kernel list and test set", "why_tests_cant": "All data.", "anchors": ["catlearn/regression/gaussian_process.py: GaussianProcess.__init__, predict, update_data", "catlearn/regression/gpfunctions/default_scale.py: ScaleData"]}
{"id": "C107", "title": "Units of the targets do not matter with scale_data", "statement": "Replacing every target y by a*y+b with a > 0 replaces every prediction p by a*p+b and every uncertainty u by a*u.", "quantifier": "every a > 0, b, training set with non-constant targets", "why_tests_cant": "All affine maps.", "anchors": ["catlearn/regression/gaussian_process.py: predict"]}
{"id": "C108", "title": "Units of the features do not matter with scale_data", "statement": "Changing unit and origin of each feature in training and test data leaves predictions and uncertainties unchanged.", "quantifier": "every positive factor and offset per feature, training set without constant features", "why_tests_cant": "All affine maps.", "anchors": ["catlearn/regression/gaussian_process.py: predict, update_data"]}
{"id": "C109", "title": "Predictions are linear in the targets", "statement": "The prediction for targets c*y1+y2 is c times the prediction for y1 plus the prediction for y2; uncertainties do not depend on targets.", "quantifier": "every pair of target vectors, c, training features, kernels", "why_tests_cant": "All reals.", "anchors": ["catlearn/regression/gaussian_process.py: predict, _make_prediction"]}
{"id": "C110", "title": "Without noise a model reproduces its training data", "statement": "With regularization 0 and plain hyperparameters, predict(train features) returns the training targets; get_training_error compares the targets with predict(train features).", "quantifier": "every training set the model accepts", "why_tests_cant": "All data sets.", "anchors": ["catlearn/regression/gaussian_process.py: predict (get_training_error)"]}
{"id": "C111", "title": "uncertainty_with_reg accounts for noise", "statement": "uncertainty_with_reg is at least the standard deviation of a new noisy observation.", "quantifier": "every model and test point", "why_tests_cant": "All reals; the noise may be stored as logarithm.", "anchors": ["catlearn/regression/gaussian_process.py: predict, predict_uncertainty"]}
{"id": "C112", "title": "Error percentiles are ordered", "statement": "The reported percentiles increase with the percentage, bracket the median and lie between the smallest and largest residual.", "quantifier": "all non-empty real vectors", "why_tests_cant": "All reals and lengths, interpolation.", "anchors": ["catlearn/regression/cost_function.py: get_error, _get_percentiles"]}
{"id": "C113", "title": "The epsilon-insensitive error is bounded by the absolute error", "statement": "The insensitive average lies between MAE - epsilon and MAE, and is zero iff every error is at most epsilon; exchanging prediction and target changes only the sign of the signed mean.", "quantifier": "all real vectors, epsilon >= 0", "why_tests_cant": "All reals.", "anchors": ["catlearn/regression/cost_function.py: get_error"]}
{"id": "C114", "title": "The rmse and absolute losses measure the fit", "statement": "Optimising hyperparameters with loss_function='rmse' or 'absolute' minimises a quantity that depends on the hyperparameters.", "quantifier": "every kernel list and data set", "why_tests_cant": "Needs an argument over all hyperparameters.", "anchors": ["catlearn/regression/cost_function.py: _cost_function", "catlearn/regression/gaussian_process.py: optimize_hyperparameters"]}
{"id": "C115", "title": "An optimized model is consistent with its hyperparameters", "statement": "After optimize_hyperparameters the stored kernels, noise and likelihood are those of the minimizer, and predictions are the posterior mean for exactly these.", "quantifier": "every data set, kernel list and minimizer result", "why_tests_cant": "Any optimizer outcome.", "anchors": ["catlearn/regression/gaussian_process.py: optimize_hyperparameters"]}
{"id": "C116", "title": "A fixed basis reproduces its span", "statement": "If the targets are a linear combination of the basis functions, the fixed basis prediction equals that combination at every test point.", "quantifier": "every basis, coefficients, training and test set", "why_tests_cant": "All bases and data.", "anchors": ["catlearn/regression/gaussian_process.py: _fixed_basis"]}
{"id": "C117", "title": "The covariance with gradients is positive definite", "statement": "For lists of gaussian and constant kernels, added or multiplied, the covariance matrix of values and gradients is symmetric positive semidefinite; with non-zero noise it is positive definite, so training with gradients succeeds.", "quantifier": "every data set, number of features, prepared kernel list", "why_tests_cant": "Statement about all matrices and vectors.", "anchors": ["catlearn/regression/gpfunctions/covariance.py: get_covariance", "catlearn/regression/gpfunctions/kernels.py: gaussian_kernel, constant_kernel", "catlearn/regression/gaussian_process.py: __init__"]}
{"id": "C118", "title": "A model trained with gradients reproduces values and gradients", "statement": "With gaussian and constant kernels and no noise, predict returns the training targets at the training points and the derivatives of the prediction there are the training gradients, with and without scale_data; with noise the prediction is the posterior mean for the joint covariance of values and gradients.", "quantifier": "every data set, gradients, sums of gaussian and constant kernels over all features", "why_tests_cant": "Derivatives of the prediction function, all data.", "anchors": ["catlearn/regression/gaussian_process.py: __init__, update_data, predict", "catlearn/regression/gpfunctions/covariance.py: get_covariance"]}
{"id": "C119", "title": "The likelihood gradient is right for the kernel hyperparameters of additive kernels", "statement": "With hyperparameters on a linear scale, for a sum of gaussian kernels, linear kernels, constants without scaling and scaled laplacian kernels that act on all features, the likelihood with its jacobian is computed for every data set and positive hyperparameters, and every entry except that of the noise is the partial derivative of the likelihood; the derivative in the noise is twice the noise times the returned entry.", "quantifier": "every such list of kernels, every data set, every vector of positive hyperparameters", "why_tests_cant": "Identity between derivatives over all reals and all sizes.", "anchors": ["catlearn/regression/gpfunctions/log_marginal_likelihood.py: log_marginal_likelihood, dK_dtheta_j", "catlearn/regression/gpfunctions/kernels.py: gaussian_dk_dwidth, laplacian_dk_dwidth"]}
{"id": "C120", "title": "The reported likelihood is that of a multivariate normal distribution", "statement": "The returned negative log marginal likelihood equals y'K^-1 y / 2 + log det K / 2 + n log(2 pi) / 2 for the training covariance K including noise.", "quantifier": "every list of such kernels, every data set, every vector of positive hyperparameters", "why_tests_cant": "Identity over all sizes of the matrix.", "anchors": ["catlearn/regression/gpfunctions/log_marginal_likelihood.py: log_marginal_likelihood"]}
{"id": "C121", "title": "A likelihood gradient is never returned for product kernels or for targets with gradients", "statement": "Asking for the jacobian with a product kernel in the list, or when the targets include derivative observations, raises an error instead of returning numbers.", "quantifier": "every kernel list with a product, every data set with derivative observations", "why_tests_cant": "All kernel lists and data.", "anchors": ["catlearn/regression/gpfunctions/log_marginal_likelihood.py: log_marginal_likelihood, dK_dtheta_j"]}
{"id": "C122", "title": "The leave-one-out estimate of ridge regression is the error of really leaving out", "statement": "For features, targets, a prior and a positive regularization, the fast leave-one-out estimate of the ridge regression is the root mean square, over the rows, of the difference between the target of the row and its prediction by coefficients that minimise the regularized cost of the data without this row. No division by zero happens.", "quantifier": "every feature matrix, target vector, prior and positive regularization", "why_tests_cant": "The estimate comes from one decomposition of all the data; that it equals retraining n times is an algebraic identity that examples only sample.", "anchors": ["catlearn/regression/ridge_regression.py: RidgeRegression._LOOCV"]}
{"id": "C123", "title": "The regularization search of ridge regression returns the best of all values tried", "statement": "When no regularization is supplied, the coefficients returned minimise the cost for a positive regularization which has the lowest error estimate among all the values the search evaluated, in all refinements and not only the last one; the number of values evaluated is wsteps+2 and then wsteps for each further refinement.", "quantifier": "every error estimate, every feature matrix and targets, every number of steps and refinements", "why_tests_cant": "Depends on an arbitrary error landscape, including one where a refinement only finds worse values.", "anchors": ["catlearn/regression/ridge_regression.py: RidgeRegression.find_optimal_regularization, get_coefficients"]}
{"id": "C124", "title": "Predictions of ridge regression are inner products with the coefficients", "statement": "Predicting with given coefficients returns, for each row in order, the inner product of the coefficients with the row, and fails if a row has another length.", "quantifier": "every coefficient vector and feature matrix", "why_tests_cant": "Ranges over all matrices.", "anchors": ["catlearn/regression/ridge_regression.py: RidgeRegression.predict"]}
{"id": "C125", "title": "The potential with noise scales energy and forces, each by one factor", "statement": "NoiseHimmelblau reports the energy of ModifiedHimmelblau (without its common factor 0.05) times one plus the number drawn for the energy, and all force components times one plus the number drawn for the forces; atoms without force stay without force.", "quantifier": "every structure and every pair of numbers drawn", "why_tests_cant": "The noise is random; a test sees one draw.", "anchors": ["catlearn/optimize/functions_calc.py: NoiseHimmelblau.calculate"]}
{"id": "C126", "title": "The Atoms objects of a minimisation are those of the training data", "statement": "Element i of MLMin.list_atoms is the structure of entry i of the training data, at every time.", "quantifier": "every start and every run", "why_tests_cant": "Depends on aliasing of objects over a history.", "anchors": ["catlearn/optimize/mlmin.py: MLMin.__init__, run"]}
{"id": "C127", "title": "Previous calculations are added to the data of an ML-NEB", "statement": "MLNEB(..., prev_calculations=l) trains on the two end points and on l, and evaluated_structures.traj contains all structures of the training data.", "quantifier": "every list of previous structures", "why_tests_cant": "Needs runs with and without files.", "anchors": ["catlearn/optimize/mlneb.py: MLNEB.__init__"]}
{"id": "C128", "title": "The force record of an ML-NEB has an entry for each evaluated structure", "statement": "After MLNEB.run, list_max_abs_forces has one entry for each structure of the training data.", "quantifier": "every run", "why_tests_cant": "All histories.", "anchors": ["catlearn/optimize/mlneb.py: MLNEB.run"]}
{"id": "C129", "title": "The number of images survives a run", "statement": "After MLNEB.run the object has the number of images it was created with, also with sequential=True, so that a following run continues with the same path resolution.", "quantifier": "every run and stop condition", "why_tests_cant": "All stop conditions.", "anchors": ["catlearn/optimize/mlneb.py: MLNEB.run"]}
{"id": "C130", "title": "The default spring constant depends only on the path", "statement": "With k=None the spring constant of an ML-NEB is the same function of the number of images and the path length for an interpolated and for a user supplied path.", "quantifier": "every number of images and distance", "why_tests_cant": "All values.", "anchors": ["catlearn/optimize/mlneb.py: MLNEB.__init__"]}
{"id": "C131", "title": "Convergence is judged by the largest force on an atom", "statement": "The number compared with fmax by MLMin and MLNEB is the largest Euclidean norm of the force on one atom of the last evaluated structure.", "quantifier": "every structure", "why_tests_cant": "All force arrays.", "anchors": ["catlearn/optimize/mlmin.py: get_fmax, converged", "catlearn/optimize/mlneb.py: get_fmax"]}
{"id": "C132", "title": "A minimisation evaluates the best of the points it visited on the surrogate", "statement": "The structure evaluated in an iteration of MLMin.run is one of the points visited by the optimiser on the surrogate, with the lowest energy plus uncertainty (ucb), energy minus uncertainty (lcb) or energy (min_energy) of all of them; only the last visited point can be converged or have an uncertainty not below max_step.", "quantifier": "every surrogate, path and acquisition function", "why_tests_cant": "All paths.", "anchors": ["catlearn/optimize/mlmin.py: MLMin.run"]}
{"id": "C133", "title": "The initial path of an ML-NEB joins the end points", "statement": "With an interpolated path the number of images is the requested one, the first is the initial and the last the final end point, and the others are the interpolated geometries in order.", "quantifier": "every number of images >= 2", "why_tests_cant": "All numbers of images.", "anchors": ["catlearn/optimize/mlneb.py: MLNEB.__init__, create_ml_neb"]}
{"id": "C134", "title": "A parallel learning curve gives the same results as a serial one", "statement": "LearningCurve.run with several processes returns the list of results of the serial run, element by element.", "quantifier": "every completion order of the tasks", "why_tests_cant": "All schedules.", "anchors": ["catlearn/learning_curve/learning_curve.py: LearningCurve.run, _single_test"]}
{"id": "C135", "title": "Each row of a data size hierarchy is the error of a model trained on its own subset", "statement": "The rows of hierarchy() run over all subsets and, for each, over the other subsets of the same level; each row is the size of the test subset and the prediction error, on it, of the model trained on the training subset.", "quantifier": "every split of every data set, every regression", "why_tests_cant": "Ranges over all hierarchies and depends on which model object is reused.", "anchors": ["catlearn/learning_curve/learning_curve.py: hierarchy", "catlearn/learning_curve/placeholder.py: placeholder.predict_subsets, reg_data_var"]}
{"id": "C136", "title": "The prediction error is a root mean square error in the units of the targets", "statement": "prediction_error returns the number of test points and the root mean square difference of test targets and predictions transformed back to the units of the targets. Changing the units of all targets (a*y+b, a>0) leaves the scaled training targets unchanged and multiplies the error by a.", "quantifier": "every coefficient vector, test set, and change of units", "why_tests_cant": "Real algebra over all inputs.", "anchors": ["catlearn/learning_curve/data_process.py: data_process.prediction_error", "catlearn/preprocess/scaling.py: target_normalize"]}
{"id": "C137", "title": "Scaled training data do not depend on the subset they are tested on", "statement": "scaling_data called again for another test subset, with the feature statistics it returned, returns the same scaled training features and targets, and scales the test subset with these statistics.", "quantifier": "every data set, for normalization and standardization", "why_tests_cant": "All data, including constant columns where the scale is replaced.", "anchors": ["catlearn/learning_curve/data_process.py: data_process.scaling_data", "catlearn/learning_curve/placeholder.py: placeholder.get_data_scale"]}
{"id": "C138", "title": "Global scaling returns the subset scaled with the statistics of all data", "statement": "globalscaling returns feature statistics of all data and the features of the subset scaled with them, for normalization and standardization and any number of features kept.", "quantifier": "every data set, option and number of features", "why_tests_cant": "All options and sizes.", "anchors": ["catlearn/learning_curve/data_process.py: data_process.globalscaling"]}
{"id": "C139", "title": "Statistics of a learning curve are taken per level", "statement": "get_statistic groups the errors by level of the hierarchy and returns for each its mean error, mean size and standard deviation; no result is dropped or mixed with another level.", "quantifier": "every list of sizes and errors", "why_tests_cant": "All lists of sizes.", "anchors": ["catlearn/learning_curve/data_process.py: data_process.get_statistic, average_nested"]}
{"id": "C140", "title": "Hierarchical cross-validation averages each result once", "statement": "transform_output returns distinct sizes and for each the mean of the results of that size, where sizes that differ by one are merged into the larger; each result belongs to exactly one of the means.", "quantifier": "every list of results and sizes", "why_tests_cant": "All lists.", "anchors": ["catlearn/cross_validation/hierarchy_cv.py: Hierarchy.transform_output"]}
{"id": "C141", "title": "Lasso feature selection returns sets of the promised sizes", "statement": "When feature_selection.selection ends, the entry for k features holds exactly k features, which are the features the lasso keeps for some penalty between zero and one; k lies strictly between the limits and does not exceed the number of features; the entries are ordered by k. The smallest allowed k comes first, with the largest penalty of the grid 1, 98/99, ..., 0 that keeps k features, if there is one.", "quantifier": "every lasso, limits and number of features", "why_tests_cant": "An adaptive search over an arbitrary regularization path.", "anchors": ["catlearn/learning_curve/feature_selection.py: feature_selection.selection, alpha_finder, interval_modifier"]}
{"id": "C142", "title": "Neighbour list, graph and adjacency matrix agree", "statement": "Converting a structure with a neighbour list to a graph, the graph to an adjacency matrix and this to a neighbour list gives a list where i and j are neighbours exactly if i != j and one was in the list of the other; the diagonal of the matrix holds the atomic numbers.", "quantifier": "every structure and neighbour list without self neighbours", "why_tests_cant": "All neighbour lists, also one-sided ones and lists with repetitions.", "anchors": ["catlearn/api/networkx_graph_api.py: ase_to_networkx, networkx_to_adjacency, matrix_to_nl"]}
{"id": "C143", "title": "Different surface states get different CatMAP keys", "statement": "Two structures share an entry of the energy landscape only if all their fields agree, and with site_specific also their sites.", "quantifier": "all structures whose fields contain no underscore", "why_tests_cant": "All field values.", "anchors": ["catlearn/api/catmap.py: catmap_energy_landscape"]}
{"id": "C144", "title": "Element types and padded length cover all structures", "statement": "normalize_features finds exactly the atomic numbers that occur in the training and test structures, in increasing order, and the size of the largest structure.", "quantifier": "every list of training structures and optional test structures", "why_tests_cant": "All lists, including empty ones.", "anchors": ["catlearn/featurize/setup.py: FeatureGenerator.normalize_features, _get_atom_types, _get_atom_length"]}
{"id": "C145", "title": "Bonds are counted by element and coordination number", "statement": "bag_edges_cn counts every bond exactly once, under the elements and coordination numbers of its two ends, whichever end is listed first, does not depend on the order of atoms, and returns one value per name.", "quantifier": "every structure with symmetric connectivity, increasing element types and coordination numbers in range", "why_tests_cant": "All structures and permutations.", "anchors": ["catlearn/fingerprint/standard.py: bag_edges_cn"]}
{"id": "C146", "title": "Several processes give the same feature matrix as one", "statement": "For a non-empty list of structures and fingerprint functions that do not fail, return_vec with several processes returns the matrix of the serial calculation.", "quantifier": "every completion order and number of processes", "why_tests_cant": "All schedules.", "anchors": ["catlearn/featurize/setup.py: FeatureGenerator.return_vec"]}
{"id": "C147", "title": "Atomic pair features list every ordered pair of atoms of every structure", "statement": "featurize_atomic_pairs returns, structure after structure, n*n rows; row r*n+c has the distance of atoms r and c, the numbers of atoms of each element in the pair and the two atomic numbers.", "quantifier": "every list of structures", "why_tests_cant": "All structures.", "anchors": ["catlearn/featurize/setup.py: FeatureGenerator.featurize_atomic_pairs"]}
{"id": "C148", "title": "Every documented default set of fingerprint functions can be built", "statement": "default_fingerprinters returns distinct functions of the generator for 'bulk', 'fragment', 'adsorbates' and 'chalcogenides' and rejects every other name.", "quantifier": "every name", "why_tests_cant": "All names.", "anchors": ["catlearn/featurize/setup.py: default_fingerprinters"]}
{"id": "C149", "title": "Elemental data is returned under the right names", "statement": "list_mendeleev_params returns for each atom and each requested parameter the tabulated value (nan where there is none), block numbers, electron counts and ionization energies expanded in their columns, in the order of the names that make_labels gives.", "quantifier": "every table, list of atomic numbers and list of parameters with which the function returns", "why_tests_cant": "All combinations of parameters and elements.", "anchors": ["catlearn/featurize/periodic_table_data.py: list_mendeleev_params, make_labels, get_mendeleev_params"]}
{"id": "C150", "title": "Parameters may be requested in any order", "statement": "Requesting elemental parameters succeeds in whatever order they are named.", "quantifier": "every list of parameters", "why_tests_cant": "All permutations of parameters.", "anchors": ["catlearn/featurize/periodic_table_data.py: list_mendeleev_params"]}
{"id": "C151", "title": "Property fingerprints are statistics over the atoms of a group", "statement": "The mean, minimum, maximum, median, sum and spread fingerprints of a site, termination, bulk or adsorbate return, under the matching name, that statistic of each elemental property over the atoms of the group that have a value; the order of atoms does not matter.", "quantifier": "every structure, group of atoms and list of parameters", "why_tests_cant": "All groups, tables with missing values and permutations.", "anchors": ["catlearn/fingerprint/adsorbate.py: mean_site, min_site, max_site, median_site, sum_site, mean_surf_ligands, term, bulk", "catlearn/fingerprint/bulk.py: bulk_summation, bulk_average, bulk_std"]}
{"id": "C152", "title": "Feature names are distinct", "statement": "No two features that the fingerprints of a generator return have the same name.", "quantifier": "every pair of fingerprint functions of the generator", "why_tests_cant": "All combinations of functions.", "anchors": ["catlearn/fingerprint/bulk.py: bulk_average, bulk_std", "catlearn/fingerprint/adsorbate.py"]}
{"id": "C153", "title": "Valence electrons are counted from the configuration", "statement": "n_outer returns the numbers of electrons in outer s, p, d and f shells of an electron configuration and their sum.", "quantifier": "every electron configuration", "why_tests_cant": "All configurations.", "anchors": ["catlearn/featurize/periodic_table_data.py: n_outer"]}
{"id": "C154", "title": "Compositions are read from formulas with their coefficients", "statement": "stat_mendeleev_params weights the elements of a formula by their coefficients, 1 where none is written.", "quantifier": "every formula", "why_tests_cant": "All formulas.", "anchors": ["catlearn/featurize/periodic_table_data.py: stat_mendeleev_params"]}
{"id": "C155", "title": "The atomic radius comes from the first available source", "statement": "get_radius returns the first radius available in the order of the list of sources and a default otherwise.", "quantifier": "every element and list of parameters", "why_tests_cant": "All tables with missing values.", "anchors": ["catlearn/featurize/periodic_table_data.py: get_radius"]}
{"id": "C156", "title": "Summed element parameters", "statement": "element_parameter_vec returns per element the parameter summed over its atoms and the sum over all atoms, under the matching names and independent of the order of atoms.", "quantifier": "every composition and table", "why_tests_cant": "All compositions, permutations and missing values.", "anchors": ["catlearn/fingerprint/standard.py: element_parameter_vec"]}
{"id": "C157", "title": "The Coulomb matrix spectrum does not depend on the order of atoms", "statement": "eigenspectrum_vec returns the eigenvalues of the Coulomb matrix in decreasing order padded with zeros, the same for every order of atoms; structures with more atoms than the padded length or fewer than two are rejected.", "quantifier": "every structure and permutation of its atoms", "why_tests_cant": "All permutations.", "anchors": ["catlearn/fingerprint/standard.py: _get_coulomb, eigenspectrum_vec"]}
{"id": "C158", "title": "distance_vec returns average distances between atoms of an element", "statement": "distance_vec returns for each element the mean distance between different atoms of that element.", "quantifier": "every structure", "why_tests_cant": "All positions.", "anchors": ["catlearn/fingerprint/standard.py: distance_vec"]}
{"id": "C159", "title": "Neighbour sums weight nearer shells more and do not depend on the order of atoms", "statement": "neighbor_sum_vec returns for each parameter, in decreasing order and padded with zeros, the values that each atom receives from its neighbours, weighted with the outermost shell number divided by the shell number.", "quantifier": "every structure, shell matrix and permutation", "why_tests_cant": "All structures and permutations.", "anchors": ["catlearn/fingerprint/graph.py: neighbor_sum_vec, _normalize_neighbors, _prop2matrix"]}
{"id": "C160", "title": "neighbor_mean_vec averages over neighbours", "statement": "neighbor_mean_vec returns the neighbour sums divided by the number of neighbours, independent of the padded length.", "quantifier": "every structure and padded length", "why_tests_cant": "All padded lengths.", "anchors": ["catlearn/fingerprint/graph.py: neighbor_mean_vec"]}
{"id": "C161", "title": "Autocorrelation functions sum over pairs at each graph distance", "statement": "get_autocorrelation returns for each distance up to the cut-off and each parameter the sum of products of values over ordered pairs of atoms at that distance: atoms with themselves at distance zero, bonds at distance one; the order of atoms does not matter.", "quantifier": "every molecule, parameter list and permutation", "why_tests_cant": "All graphs and permutations.", "anchors": ["catlearn/fingerprint/molecule.py: get_autocorrelation"]}
{"id": "C162", "title": "Convoluted fingerprints multiply values of bonded atoms", "statement": "conv_bulk and conv_term return the root of the sum of products of the values of bonded atoms, one of them in the subset, divided by the size of the subset.", "quantifier": "every structure and subset of atoms", "why_tests_cant": "All subsets.", "anchors": ["catlearn/fingerprint/convoluted.py: conv_bulk, conv_term"]}
{"id": "C163", "title": "nearestneighbour_vec averages numbers of neighbours", "statement": "nearestneighbour_vec returns for each ordered pair of elements the average number of atoms of the second element near an atom of the first.", "quantifier": "every structure and cut-off", "why_tests_cant": "All structures.", "anchors": ["catlearn/fingerprint/particle.py: nearestneighbour_vec"]}
{"id": "C164", "title": "bond_count_vec counts every bond", "statement": "bond_count_vec counts each bond of atoms with up to twelve bonds once in each direction and returns vectors of one length for all structures.", "quantifier": "every structure and pair of structures", "why_tests_cant": "All structures.", "anchors": ["catlearn/fingerprint/particle.py: bond_count_vec"]}
{"id": "C165", "title": "Coordination numbers of an adsorption site", "statement": "For a site of one to five atoms the coordination features are the average coordination number of the site atoms with respect to the slab, the number of distinct neighbours of the site and the average number of neighbours of the chemisorbed atoms; larger sites are rejected with an error; the order in which atoms are listed does not matter.", "quantifier": "all structures, subsets and reorderings of the atoms", "why_tests_cant": "Tests use a few slabs with one atom ordering.", "anchors": ["catlearn/fingerprint/adsorbate.py: generalized_cn"]}
{"id": "C166", "title": "Generalized coordination numbers", "statement": "The generalized coordination number of a site is the sum of the coordination numbers of its neighbours divided by the maximal coordination number of the site; that of the chemisorbed atoms is the average over these atoms of the coordination numbers of their neighbours divided by twelve.", "quantifier": "all structures and subsets", "why_tests_cant": "A test on one slab compares with the number the code printed; the formula must hold for every site.", "anchors": ["catlearn/fingerprint/adsorbate.py: generalized_cn"]}
{"id": "C167", "title": "Bag of coordination numbers", "statement": "The feature called count_Nnn_site is the number of distinct neighbours of the site that have coordination number N with respect to the slab.", "quantifier": "all structures and subsets", "why_tests_cant": "Tests check the length of the vector.", "anchors": ["catlearn/fingerprint/adsorbate.py: bag_cn"]}
{"id": "C168", "title": "Bag of adsorbate atoms", "statement": "The vector holds the number of adsorbate atoms of every element type, adds up to the number of adsorbate atoms, does not depend on the order of atoms, and an adsorbate atom of another element is an error.", "quantifier": "all structures, element types, subsets and reorderings", "why_tests_cant": "Tests use one adsorbate.", "anchors": ["catlearn/fingerprint/adsorbate.py: bag_atoms_ads"]}
{"id": "C169", "title": "Neighbours of the chemisorbed atoms", "statement": "For every element type the feature is the number of bonds between chemisorbed atoms and atoms of that element; with all elements listed they add up to the number of bonds of the chemisorbed atoms; the two last features are the number of bonds between chemisorbed atoms and site atoms and the number of site atoms. The order of atoms does not matter.", "quantifier": "all symmetric connectivity matrices, element types, subsets and reorderings", "why_tests_cant": "Tests use one adsorbate.", "anchors": ["catlearn/fingerprint/adsorbate.py: count_chemisorbed_fragment"]}
{"id": "C170", "title": "Strain from atomic radii", "statement": "The strain e of the site (or the termination) satisfies mean radius = (1 + e) * mean bulk radius, is positive exactly if the mean radius is larger than that of the bulk, and vanishes for a termination of the bulk composition; compositions given in the database take precedence over the subsets.", "quantifier": "all compositions and positive radii", "why_tests_cant": "Tests evaluate one alloy.", "anchors": ["catlearn/fingerprint/adsorbate.py: strain"]}
{"id": "C171", "title": "Bonds within the adsorbate", "statement": "The vector of bonds within the adsorbate has for every pair of elements the number of bonds between atoms outside the slab, under the name of the pair, adds up to the number of these bonds, and does not depend on the order of atoms.", "quantifier": "all structures, sorted element types, subsets and reorderings", "why_tests_cant": "Tests use one adsorbate.", "anchors": ["catlearn/fingerprint/adsorbate.py: bag_edges_ads"]}
{"id": "C172", "title": "Adsorbate and surface bonds without slab bonds", "statement": "bag_edges_chemi counts the bonds within the adsorbate and the bonds between adsorbate and surface, and no bonds within the slab.", "quantifier": "all structures, sorted element types and subsets", "why_tests_cant": "Tests check the length of the vector.", "anchors": ["catlearn/fingerprint/adsorbate.py: bag_edges_chemi"]}
{"id": "C173", "title": "All bonds of the adsorbate atoms", "statement": "bag_edges_all counts every bond of an adsorbate atom, within the adsorbate and with the surface, in a vector with one entry for each pair of an adsorbate element and an element.", "quantifier": "all structures, sorted element types and subsets", "why_tests_cant": "Tests check the length of the vector against the names.", "anchors": ["catlearn/fingerprint/adsorbate.py: bag_edges_all"]}
{"id": "C174", "title": "Electronegativity differences over adsorbate-site bonds", "statement": "The feature is the sum of squared electronegativity differences over the bonds between chemisorbed atoms and site atoms, each bond counted once, and nan if a value is missing.", "quantifier": "all symmetric connectivity matrices, disjoint subsets and electronegativity scales", "why_tests_cant": "Tests use one adsorbate and compare lengths.", "anchors": ["catlearn/fingerprint/adsorbate.py: en_difference_chemi"]}
{"id": "C175", "title": "Electronegativity differences over adsorbate bonds", "statement": "The features are the sums of squared electronegativity differences over the bonds within the adsorbate, and over these and the bonds with the site, each bond counted once.", "quantifier": "all symmetric connectivity matrices, disjoint subsets and electronegativity scales", "why_tests_cant": "Tests use one adsorbate and compare lengths.", "anchors": ["catlearn/fingerprint/adsorbate.py: en_difference_ads, en_difference_active"]}
{"id": "C176", "title": "Formal charges of a slab are conserved", "statement": "Every anion of the slab has the ion charge and takes it from its neighbours in equal parts for its bonds; the formal charges of all atoms add up to zero if every anion has a neighbour, and to the charge of the isolated anions otherwise. Charges follow the atoms when these are listed in another order.", "quantifier": "all connectivity matrices without negative entries, ion charges and reorderings", "why_tests_cant": "Tests compare one oxide with stored numbers.", "anchors": ["catlearn/fingerprint/chalcogenide.py: formal_charges"]}
{"id": "C177", "title": "Excess charges measure the distance to oxidation states", "statement": "The charge features are the mean and sum of the formal charges of the site, the deviations of charges from the nearest oxidation state summed over the slab atoms of the site and over the slab, and the sum of their absolute values, which bounds both and vanishes exactly if every formal charge is an oxidation state; without anions all features are zero.", "quantifier": "all structures, subsets and lists of oxidation states", "why_tests_cant": "Tests compare one oxide with stored numbers.", "anchors": ["catlearn/fingerprint/chalcogenide.py: formal_charges"]}
{"id": "C178", "title": "utilities.formal_charges conserves charge", "statement": "The formal charges returned for a chalcogenide add up to zero when every anion has a neighbour, and a structure without anions has zero charges.", "quantifier": "all structures", "why_tests_cant": "Tests use one oxide.", "anchors": ["catlearn/utilities/utilities.py: formal_charges"]}
{"id": "C179", "title": "Adsorbate and slab contain every atom once", "statement": "After autogen_info, 'ads_atoms' and 'slab_atoms' of an image with an adsorbate together contain every atom exactly once, unless the caller supplied both.", "quantifier": "all images, with or without one of the two groups supplied, all ways in which the adsorbate is identified", "why_tests_cant": "the adsorbate can be identified in seven ways, and each depends on tags, composition and connectivity of arbitrary structures", "anchors": ["catlearn/featurize/adsorbate_prep.py: autogen_info, detect_adsorbate, slab_index, ads_index"]}
{"id": "C180", "title": "Supplied groups of atoms are checked", "statement": "autogen_info accepts supplied 'ads_atoms' and 'slab_atoms' only if all atoms belong to exactly one of them.", "quantifier": "all images with both groups supplied", "why_tests_cant": "only the sizes are compared, so that tests with valid groups always pass", "anchors": ["catlearn/featurize/adsorbate_prep.py: autogen_info"]}
{"id": "C181", "title": "Site, chemisorbed and ligand atoms", "statement": "autogen_info lists, each atom once: as chemisorbed atoms the atoms of the adsorbate bonded to the slab, as site atoms the atoms of the slab bonded to the adsorbate, as ligand atoms the other atoms of the slab bonded to a site atom.", "quantifier": "all images, all connectivity matrices", "why_tests_cant": "exactness must hold for every connectivity", "anchors": ["catlearn/featurize/adsorbate_prep.py: autogen_info, info2primary_index"]}
{"id": "C182", "title": "Every image gets all groups of atoms", "statement": "autogen_info returns images with all groups of atoms attached.", "quantifier": "all images", "why_tests_cant": "depends on tags, constraints and metadata; tests use images that have them", "anchors": ["catlearn/featurize/adsorbate_prep.py: autogen_info, detect_termination, connectivity_termination"]}
{"id": "C183", "title": "The termination is the outermost layer", "statement": "termination_info stores the atoms of the outermost layer as 'termination_atoms' and those of the second layer as 'subsurf_atoms', like autogen_info.", "quantifier": "all images", "why_tests_cant": "tests do not look at the stored lists", "anchors": ["catlearn/featurize/adsorbate_prep.py: termination_info, detect_termination"]}
{"id": "C184", "title": "Layers from tags or constraints", "statement": "With tags, termination, subsurface and bulk atoms are those tagged 1, 2 and more than 1. With one constraint, every atom of the slab is either bulk or termination; bulk atoms are those constrained or with at most two bonds fewer than any other slab atom, and the subsurface atoms are the bulk atoms bonded to the termination. With the number of layers, the termination is the uppermost layer without the adsorbate, the subsurface the layer below, and the bulk all layers below the uppermost.", "quantifier": "all tags, constraints and connectivity matrices", "why_tests_cant": "must hold for every structure", "anchors": ["catlearn/featurize/adsorbate_prep.py: detect_termination, tags_termination, constraints_termination"]}
{"id": "C185", "title": "Bulk atoms belong to the slab", "statement": "The bulk atoms found by autogen_info never contain an atom of the adsorbate.", "quantifier": "all images, all assignments of atoms to layers", "why_tests_cant": "needs an adsorbate in the height range of the slab", "anchors": ["catlearn/featurize/adsorbate_prep.py: layers_termination, constraints_termination"]}
{"id": "C186", "title": "The adsorbate has the composition of its species", "statement": "The atoms identified as adsorbate have exactly the chemical composition of the species, or the call fails.", "quantifier": "all structures and species, all ways of identification", "why_tests_cant": "errors need elements that occur in the adsorbate and in the slab", "anchors": ["catlearn/featurize/adsorbate_prep.py: detect_adsorbate, formula2ads_index, connectivity2ads_index, tags2ads_index, layers2ads_index, z2ads_index"]}
{"id": "C187", "title": "Reconstructed slabs are found", "statement": "check_reconstructions returns the positions of exactly those pairs in which the connectivity within the slab differs from that of the reference slab.", "quantifier": "all lists of pairs with as many slab atoms as reference atoms; other sizes are an error", "why_tests_cant": "must hold for all connectivity matrices", "anchors": ["catlearn/featurize/adsorbate_prep.py: check_reconstructions, compare_slab_connectivity"]}
{"id": "C188", "title": "Cations and anions", "statement": "attach_cations divides the atoms into the atoms of the anion element and all others, and raises ValueError if there is no anion.", "quantifier": "all structures, all elements", "why_tests_cant": "must hold for all structures", "anchors": ["catlearn/featurize/adsorbate_prep.py: attach_cations"]}
{"id": "C189", "title": "Connection matrices are symmetric", "statement": "The connection matrix has entry one exactly for distinct atoms whose distance is within the shell given by their radii; it is symmetric and zero on the diagonal.", "quantifier": "all structures, radii, buffers and shells", "why_tests_cant": "must hold for all distances", "anchors": ["catlearn/featurize/neighbor_matrix.py: connection_matrix, _get_neighborlist, _get_periodic_neighborlist"]}
{"id": "C190", "title": "Neighbour shells cover all pairs", "statement": "Every pair of distinct atoms is in exactly one neighbour shell.", "quantifier": "all positive distances and radii, all buffers that are not negative", "why_tests_cant": "the exceptions are distances exactly on a boundary", "anchors": ["catlearn/featurize/neighbor_matrix.py: _get_neighborlist, _get_periodic_neighborlist"]}
{"id": "C191", "title": "connection_dict lists the requested neighbours", "statement": "connection_dict returns for every atom its neighbours in the requested shell, padded with -1 to a common length.", "quantifier": "all structures and shells", "why_tests_cant": "tests use the first shell and bulk-like structures", "anchors": ["catlearn/featurize/neighbor_matrix.py: connection_dict"]}
{"id": "C192", "title": "Neighbour features do not depend on the order of atoms", "statement": "The number of neighbour features depends only on the numbers of elements and properties. The features do not change if the atoms are reordered, for a given order of the elements, and sum coordination numbers or properties of neighbours per element.", "quantifier": "all structures, reorderings and properties", "why_tests_cant": "must hold for all permutations", "anchors": ["catlearn/featurize/neighbor_matrix.py: neighbor_features, _get_features, property_matrix"]}
{"id": "C193", "title": "Neighbour features count bonds between elements", "statement": "The features count the bonds between atoms of one element, the bonds between each pair of elements and sums of generalized coordination numbers.", "quantifier": "all structures", "why_tests_cant": "small tests do not check the values", "anchors": ["catlearn/featurize/neighbor_matrix.py: _get_features, _heteroatomic_matrix, _generalized_matrix"]}
{"id": "C194", "title": "Initial chromosomes are distinct", "statement": "The first genes drawn by GAFeatureSelection are pairwise different sets of the requested number of different columns, and if the population is large enough every such set is drawn.", "quantifier": "all numbers of columns, chromosome sizes, population sizes and shuffles", "why_tests_cant": "must hold for every random state", "anchors": ["catlearn/featurize/site_stability.py: GAFeatureSelection.random_genes, unique_set"]}
{"id": "C195", "title": "Chromosomes stay valid", "statement": "After any number of generations every chromosome of the population selects the requested number of different existing columns, and the population keeps its size.", "quantifier": "all scores, all random draws, all histories of generations", "why_tests_cant": "must hold for every history of random draws", "anchors": ["catlearn/featurize/site_stability.py: GAFeatureSelection.evolve, crossover, mutate, mutate_duplicate_chromosomes"]}
{"id": "C196", "title": "Offspring mix two parents", "statement": "Every offspring takes half of its columns from one member of the population and the rest from a different one.", "quantifier": "all populations and shuffles", "why_tests_cant": "the copied first offspring looks like a valid one", "anchors": ["catlearn/featurize/site_stability.py: GAFeatureSelection.crossover"]}
{"id": "C197", "title": "Crossover keeps scores right", "statement": "If all recorded scores are the scores of the chromosomes and the score does not depend on the order of columns, the same holds after a crossover.", "quantifier": "all populations, scores and shuffles", "why_tests_cant": "parents are shuffled in place", "anchors": ["catlearn/featurize/site_stability.py: GAFeatureSelection.crossover, get_fitness"]}
{"id": "C198", "title": "Recorded scores belong to the chromosomes", "statement": "After any generation each recorded score is the score of the chromosome it is stored with, and the reported maximum fitness is reached by a member of the population.", "quantifier": "all histories of generations", "why_tests_cant": "needs a mutation and a comparison with a fresh evaluation", "anchors": ["catlearn/featurize/site_stability.py: GAFeatureSelection.mutate, max_population_fitness"]}
{"id": "C199", "title": "The best fitness is kept without mutations", "statement": "If there are no mutations and scores are between zero and one and do not depend on the order of columns, no generation lowers the best score.", "quantifier": "all populations, scores and shuffles, any number of generations", "why_tests_cant": "must hold for every history", "anchors": ["catlearn/featurize/site_stability.py: GAFeatureSelection.evolve, crossover"]}
{"id": "C200", "title": "Crossover needs enough members", "statement": "A crossover succeeds for every population with more members than offspring.", "quantifier": "all populations, all numbers of offspring", "why_tests_cant": "tests use one ratio of population to offspring", "anchors": ["catlearn/featurize/site_stability.py: GAFeatureSelection.crossover"]}
{"id": "C201", "title": "Parents are made less likely to survive", "statement": "A crossover lowers the weights of the parents and keeps their order.", "quantifier": "all scores, also negative ones", "why_tests_cant": "needs negative scores, which R2 takes for bad models", "anchors": ["catlearn/featurize/site_stability.py: GAFeatureSelection.crossover, population_percentile"]}
{"id": "C202", "title": "Homogeneity", "statement": "The homogeneity is the share of the columns that do not occur in the population: between zero and one, and zero exactly if all columns occur.", "quantifier": "all populations", "why_tests_cant": "must hold for every population", "anchors": ["catlearn/featurize/site_stability.py: GAFeatureSelection.homogeneity"]}
{"id": "C203", "title": "Feature frequencies are percentages", "statement": "Each reported frequency is the percentage of a column among all columns of the population; columns are reported once, in decreasing order of frequency, and the sum is 100.", "quantifier": "all populations", "why_tests_cant": "must hold for every population", "anchors": ["catlearn/featurize/site_stability.py: GAFeatureSelection.feature_frequencies"]}
{"id": "C204", "title": "Feature frequencies cover all columns", "statement": "The frequencies report every column, with zero for those that do not occur.", "quantifier": "all populations", "why_tests_cant": "only fails if the last columns are absent", "anchors": ["catlearn/featurize/site_stability.py: GAFeatureSelection.feature_frequencies"]}
{"id": "C205", "title": "Random genes can be drawn at any time", "statement": "random_genes returns pairwise different sets of columns also after generations have been evolved.", "quantifier": "all histories of generations", "why_tests_cant": "needs a call after a mutation", "anchors": ["catlearn/featurize/site_stability.py: GAFeatureSelection.random_genes, mutate"]}
{"id": "C206", "title": "The composition counts all atoms", "statement": "stoichiometry has one entry for each element that occurs, with its number of atoms, and the numbers add up to the number of atoms.", "quantifier": "all structures and all orders in which a set is listed", "why_tests_cant": "unit tests use one slab", "anchors": ["catlearn/featurize/slab_utilities.py: stoichiometry"]}
{"id": "C207", "title": "Oxides contain oxygen and a metal", "statement": "A structure that is_oxide accepts contains oxygen and a metal that is not more frequent than oxygen.", "quantifier": "all structures", "why_tests_cant": "tests use single compounds", "anchors": ["catlearn/featurize/slab_utilities.py: is_oxide"]}
{"id": "C208", "title": "A metal oxide is recognised", "statement": "is_oxide gives the same answer for the same binary compound in each run.", "quantifier": "all binary compounds and set orders", "why_tests_cant": "set order varies between runs only", "anchors": ["catlearn/featurize/slab_utilities.py: is_oxide"]}
{"id": "C209", "title": "Layers divide the slab", "statement": "The layers returned for a slab contain each atom once and are ordered by average height, with all atoms of a layer within the tolerance.", "quantifier": "all slabs that are not oxides, any clustering result", "why_tests_cant": "k-means starts at random", "anchors": ["catlearn/featurize/slab_utilities.py: slab_layers"]}
{"id": "C210", "title": "Layers contain all atoms of any slab", "statement": "slab_layers assigns each atom of a slab to a layer.", "quantifier": "all slabs", "why_tests_cant": "needs oxides and very thin slabs", "anchors": ["catlearn/featurize/slab_utilities.py: slab_layers"]}
{"id": "C211", "title": "Metals are complete", "statement": "is_metal is true for every metallic element and false for every nonmetal.", "quantifier": "all elements", "why_tests_cant": "a table is rarely tested for all elements", "anchors": ["catlearn/featurize/slab_utilities.py: is_metal"]}
{"id": "C212", "title": "One row per site", "statement": "The table of site features has one row per selected site in the order of the sites, and each cell in a column whose name has no digit one is the feature of that site, zero where the site lacks it and there are several sites.", "quantifier": "all lists of sites and all structures", "why_tests_cant": "depends on the union of columns over all sites", "anchors": ["catlearn/featurize/site_stability.py: SiteFeaturizer.site_features"]}
{"id": "C213", "title": "Missing data are visible", "statement": "A site without a computed energy is distinguishable in the table from a site of stability zero, and a structure with one element from one with two.", "quantifier": "all tables of at least two sites", "why_tests_cant": "needs mixtures of sites with and without energies", "anchors": ["catlearn/featurize/site_stability.py: SiteFeaturizer.site_features"]}
{"id": "C214", "title": "Cohesive energy is per atom and relative to the references", "statement": "The cohesive energy of a material is its total energy minus the reference energies of all its atoms, divided by their number; without an energy or a reference it is an error.", "quantifier": "all materials and reference tables", "why_tests_cant": "depends on composition counting for arbitrary compositions", "anchors": ["catlearn/featurize/site_stability.py: Material.cohesive_energy"]}
{"id": "C215", "title": "Site stability is a difference of cohesive energies", "statement": "The stability of a site equals the total cohesive energy of the material minus that of the material without the atom.", "quantifier": "all materials, sites and reference tables", "why_tests_cant": "algebraic identity over all compositions", "anchors": ["catlearn/featurize/site_stability.py: SiteFeaturizer.get_DFT_site_stability, Material.cohesive_energy, Material.create_defect"]}
{"id": "C216", "title": "Unique sites are all atoms", "statement": "unique_sites lists each atom of each image exactly once.", "quantifier": "all lists of images", "why_tests_cant": "any number of images and atoms", "anchors": ["catlearn/featurize/site_stability.py: SiteFeaturizer.unique_sites"]}
{"id": "C217", "title": "Random sites exist and are not excluded", "statement": "select_random_sites returns the requested number of sites, each of them an atom of an image and none of the excluded ones.", "quantifier": "all draws of the random generator and all exclusions", "why_tests_cant": "random", "anchors": ["catlearn/featurize/site_stability.py: SiteFeaturizer.select_random_sites"]}
{"id": "C218", "title": "Random sites are different", "statement": "select_random_sites does not return a site twice.", "quantifier": "all draws of the random generator", "why_tests_cant": "random", "anchors": ["catlearn/featurize/site_stability.py: SiteFeaturizer.select_random_sites"]}
{"id": "C219", "title": "The references of the user are used", "statement": "The reference energies given to the featurizer are used for the features of the sites it selects.", "quantifier": "all selections and reference tables", "why_tests_cant": "tests use the default references", "anchors": ["catlearn/featurize/site_stability.py: SiteFeaturizer.select_specific_sites, _update_materials"]}
{"id": "C220", "title": "Features belong to the current sites", "statement": "After a selection of other sites the table of features describes the new sites.", "quantifier": "all histories of selections", "why_tests_cant": "needs two selections with a table in between", "anchors": ["catlearn/featurize/site_stability.py: SiteFeaturizer.site_features, select_specific_sites, select_random_sites, traj_to_sites, read_sites"]}
{"id": "C221", "title": "Refresh brings the table up to date", "statement": "After refresh the table of features has one row for each present site with the features of that site.", "quantifier": "all histories", "why_tests_cant": "any cached state", "anchors": ["catlearn/featurize/site_stability.py: SiteFeaturizer.refresh"]}
{"id": "C222", "title": "Outliers are removed from table and sites alike", "statement": "remove_outlier removes the same rows from the tables and from the list of sites.", "quantifier": "all tables and values", "why_tests_cant": "needs several outliers", "anchors": ["catlearn/featurize/site_stability.py: SiteFeaturizer.remove_outlier"]}
{"id": "C223", "title": "The vacancy is found", "statement": "For a material and the same material without atom i, get_site_index is i exactly when no other atom lies within the tolerance of atom i, and never another index.", "quantifier": "all structures and atoms", "why_tests_cant": "depends on real coordinates", "anchors": ["catlearn/featurize/site_stability.py: get_site_index"]}
{"id": "C224", "title": "Sites from files are numbered", "statement": "Reading trajectory files one after the other into a new featurizer gives one site per file, in order, numbered from zero.", "quantifier": "all sequences of files", "why_tests_cant": "histories of calls", "anchors": ["catlearn/featurize/site_stability.py: SiteFeaturizer.traj_to_sites"]}
{"id": "C225", "title": "Materials have different numbers", "statement": "Sites read from different files have different material numbers.", "quantifier": "all sequences of calls, extending or replacing", "why_tests_cant": "needs a replacing call after another", "anchors": ["catlearn/featurize/site_stability.py: SiteFeaturizer.traj_to_sites"]}
{"id": "C226", "title": "Site features describe the bonded atoms", "statement": "The features of a site are the minimum, maximum, mean and standard deviation over the atoms bonded to it of their coordination numbers, atomic numbers and distances, and the number of these atoms.", "quantifier": "all structures with a symmetric neighbour relation and all sites", "why_tests_cant": "products with masked zeros", "anchors": ["catlearn/featurize/site_stability.py: Material.get_site_features, site_distances"]}
{"id": "C227", "title": "Angles of a site", "statement": "Each angle of a site is between two of its bonds and lies between 0 and 180 degrees.", "quantifier": "all structures and sites", "why_tests_cant": "real valued geometry", "anchors": ["catlearn/featurize/site_stability.py: Material.site_angles"]}
{"id": "C228", "title": "Isolated sites can be featurized", "statement": "The table of features can be made for all selected sites.", "quantifier": "all structures", "why_tests_cant": "needs an atom without neighbours", "anchors": ["catlearn/featurize/site_stability.py: Material.site_distances, SiteFeaturizer.site_features"]}
{"id": "C229", "title": "Energies from a file reach their sites", "statement": "update_site_file gives each site the last energy the file has for its material and site index and leaves the other sites as they are.", "quantifier": "all files and lists of sites", "why_tests_cant": "repeated and missing rows", "anchors": ["catlearn/featurize/site_stability.py: update_site_file"]}
{"id": "C230", "title": "Updating energies keeps the energy of the material", "statement": "update_site_file changes the energies of the defects only.", "quantifier": "all files and lists of sites", "why_tests_cant": "needs stored energies without calculator", "anchors": ["catlearn/featurize/site_stability.py: update_site_file"]}
{"id": "C231", "title": "The table of all sites", "statement": "features_of_all_sites has one row per atom of each image, in order, with the features of that atom and the number of its image, if all images have the same columns.", "quantifier": "all lists of images", "why_tests_cant": "any number of images and atoms", "anchors": ["catlearn/featurize/site_stability.py: SiteFeaturizer.features_of_all_sites"]}
{"id": "C232", "title": "No column of the table of all sites is lost", "statement": "features_of_all_sites has every feature once for any list of images.", "quantifier": "all lists of images", "why_tests_cant": "needs images with different numbers of elements", "anchors": ["catlearn/featurize/site_stability.py: SiteFeaturizer.features_of_all_sites"]}
{"id": "C233", "title": "Composition features without order", "statement": "The number of atoms, the cohesive energy and the means over the elements in the features of a system do not depend on the order of a set.", "quantifier": "all materials and set orders", "why_tests_cant": "set order varies between runs only", "anchors": ["catlearn/featurize/site_stability.py: Material.system_features"]}
{"id": "C234", "title": "Features of a system are reproducible", "statement": "All features of a system are the same in each run.", "quantifier": "all materials and set orders", "why_tests_cant": "set order varies between runs only", "anchors": ["catlearn/featurize/site_stability.py: Material.system_features"]}
{"id": "C235", "title": "Clusters partition the data", "statement": "Clustering returns each training row in the cluster of its k-means label and each test row in the cluster of its nearest centroid, the first in a tie, with the targets in the same clusters and order as the rows, and no row lost or repeated.", "quantifier": "all data, numbers of clusters and k-means results", "why_tests_cant": "any k-means result", "anchors": ["catlearn/utilities/clustering.py: cluster_features, _cluster_split"]}
{"id": "C236", "title": "Clustering works without the optional data", "statement": "cluster_features works without test data or targets, whose default is None.", "quantifier": "all training data", "why_tests_cant": "fails for every such call", "anchors": ["catlearn/utilities/clustering.py: cluster_features, _cluster_split"]}
{"id": "C237", "title": "The cluster acquisition function returns a value per point", "statement": "cluster returns one value for each test point.", "quantifier": "all data", "why_tests_cant": "the property is over all calls", "anchors": ["catlearn/active_learning/acquisition_functions.py: cluster"]}
{"id": "C238", "title": "Sammon's error measures changes of distance", "statement": "For as many reduced as original points that do not all coincide, Sammon's error is not negative, zero exactly if all distances are preserved, and does not depend on the unit of length.", "quantifier": "all pairs of point sets of the same size", "why_tests_cant": "real valued, any number of points and dimensions", "anchors": ["catlearn/utilities/sammon.py: sammons_error"]}
{"id": "C239", "title": "Sammon's error is a number", "statement": "Sammon's error is a finite number for any two sets with the same number of points, and zero if all distances are preserved.", "quantifier": "all pairs of point sets of the same size", "why_tests_cant": "needs coincident points", "anchors": ["catlearn/utilities/sammon.py: sammons_error"]}
{"id": "C240", "title": "The pair distribution counts neighbours", "statement": "Each value of the pair distribution times the volume of its shell is the number of atoms at that distance from a chosen atom, averaged over the chosen atoms of an image and over the images; the deviations count pairs by distance less the two radii likewise.", "quantifier": "all images, bins, ranges and choices of elements", "why_tests_cant": "depends on real distances", "anchors": ["catlearn/utilities/distribution.py: pair_distribution, pair_deviation, _distance_hist"]}
{"id": "C241", "title": "Positions of the pair distribution are bin centres", "statement": "The second array returned with a pair distribution has the centres of the bins.", "quantifier": "all ranges and numbers of bins", "why_tests_cant": "holds for no number of bins", "anchors": ["catlearn/utilities/distribution.py: pair_distribution, pair_deviation"]}
{"id": "C242", "title": "Pair distributions without minimum images", "statement": "With mic=False the distances are those without periodic images.", "quantifier": "all images", "why_tests_cant": "needs a periodic structure", "anchors": ["catlearn/utilities/distribution.py: _distance_hist"]}
{"id": "C243", "title": "Images without the element do not count", "statement": "The distribution around an element is the average over the images that have it.", "quantifier": "all lists of images", "why_tests_cant": "needs an image without the element", "anchors": ["catlearn/utilities/distribution.py: pair_distribution, _distance_hist"]}
{"id": "C244", "title": "An atom is no neighbour of itself", "statement": "Deviations from the nominal bond length are those of pairs of different atoms.", "quantifier": "all images and radii", "why_tests_cant": "needs small radii", "anchors": ["catlearn/utilities/distribution.py: pair_deviation, _distance_hist"]}
{"id": "C245", "title": "Correlations do not depend on scaling", "statement": "target_correlation returns one row per coefficient with, for each feature, the Pearson, Spearman or Kendall coefficient of the feature as given and the target, which lies between -1 and 1.", "quantifier": "all feature matrices and targets", "why_tests_cant": "real valued, any size", "anchors": ["catlearn/utilities/utilities.py: target_correlation"]}
{"id": "C246", "title": "A written split is read back", "statement": "A k-fold split written as json or pickle is read back with the same arrays, other files are not touched, and an unsupported format writes nothing.", "quantifier": "all splits with rows in each fold, file names and formats", "why_tests_cant": "round trip over all data", "anchors": ["catlearn/cross_validation/k_fold_cv.py: write_split, read_split, k_fold"]}
{"id": "C247", "title": "Any split can be written and read back", "statement": "Splits without targets or with empty folds, which k_fold produces, can be written as json and are read back with the same shapes.", "quantifier": "all results of k_fold", "why_tests_cant": "needs more folds than rows", "anchors": ["catlearn/cross_validation/k_fold_cv.py: write_split, read_split, k_fold"]}
{"id": "C248", "title": "The file of a search has the last generation", "statement": "After each generation of a genetic search with a file name, the file has exactly the population and the fitness of that generation.", "quantifier": "all searches and generations", "why_tests_cant": "any number of generations", "anchors": ["catlearn/ga/io.py: _write_data, read_data", "catlearn/ga/algorithm.py: search"]}
{"id": "C249", "title": "An interrupted save keeps the previous generation", "statement": "If a search is interrupted at any time after a generation was saved, a saved generation can be read.", "quantifier": "all interruption points", "why_tests_cant": "crash in the middle of a write", "anchors": ["catlearn/ga/io.py: _write_data, read_data"]}
{"id": "C250", "title": "A hierarchy split is loaded from its file", "statement": "A split that was written is loaded again, in both formats.", "quantifier": "all splits, file names and format strings", "why_tests_cant": "identity of strings depends on how they were made", "anchors": ["catlearn/cross_validation/hierarchy_cv.py: Hierarchy._write_split, load_split"]}
{"id": "C251", "title": "Stored data are returned by their index", "statement": "After storing features and targets in a new database, the index has one id per sample, and each subset of ids returns exactly the samples stored under them, features with their own targets.", "quantifier": "all data and subsets of ids (of a size that is not a multiple of 999)", "why_tests_cant": "all subsets of all data", "anchors": ["catlearn/cross_validation/hierarchy_cv.py: Hierarchy.todb, _get_index, get_subset_data"]}
{"id": "C252", "title": "Storing data again does not mix training and test", "statement": "After todb is called again with the same data, training and test sets with different ids have no sample in common.", "quantifier": "all data", "why_tests_cant": "needs a second run with the same file", "anchors": ["catlearn/cross_validation/hierarchy_cv.py: Hierarchy.todb"]}
{"id": "C253", "title": "Global data have all features once", "statement": "globalscaledata returns the features of every selected sample exactly once, and the features and targets of the first half.", "quantifier": "all data and hierarchies", "why_tests_cant": "all hierarchies", "anchors": ["catlearn/cross_validation/hierarchy_cv.py: Hierarchy.globalscaledata"]}
{"id": "C254", "title": "Backward selection keeps the most sensitive features", "statement": "Every step of a backward selection has the number of features it is labelled with, they are original columns in their order, taken from those of the step before; no feature left out was more sensitive than one kept; and the step is the analysis of the original data restricted to these columns.", "quantifier": "all data, kernels, selections, minimizers", "why_tests_cant": "all steps of all selections", "anchors": ["catlearn/regression/gpfunctions/sensitivity.py: SensitivityAnalysis.backward_selection"]}
{"id": "C255", "title": "Backward selection can be repeated", "statement": "A second backward selection on the same object starts from all the features again.", "quantifier": "all data and histories of calls", "why_tests_cant": "histories of calls", "anchors": ["catlearn/regression/gpfunctions/sensitivity.py: SensitivityAnalysis.backward_selection"]}
{"id": "C256", "title": "Sensitivities are nonnegative", "statement": "Sensitivities are never negative, there is one per feature, and a feature with one value in all training and test points has sensitivity zero, so no feature is ranked below it.", "quantifier": "all data, kernels", "why_tests_cant": "all data", "anchors": ["catlearn/regression/gpfunctions/sensitivity.py: SensitivityAnalysis._mean_sensitivity"]}
{"id": "C257", "title": "Sensitivity measures the model's derivative", "statement": "The sensitivity of a feature is the mean squared derivative of the predicted mean at the test points.", "quantifier": "all data, kernels, test points", "why_tests_cant": "derivatives at every point", "anchors": ["catlearn/regression/gpfunctions/sensitivity.py: SensitivityAnalysis.sensitivity, _mean_sensitivity"]}
{"id": "C258", "title": "The general GP does not depend on units", "statement": "Training the general Gaussian process on features in other units (a positive factor and a shift per feature) gives the same model, and it predicts the same for test features in these units.", "quantifier": "all features with missing and infinite values, all units", "why_tests_cant": "all units and data", "anchors": ["catlearn/estimator/general_gp.py: GeneralGaussianProcess.train_gaussian_process, gaussian_process_predict"]}
{"id": "C259", "title": "Documented dimensions are accepted", "statement": "The general Gaussian process can be trained with the documented dimensions 'single' and 'all'.", "quantifier": "all data", "why_tests_cant": "all data", "anchors": ["catlearn/estimator/general_gp.py: GeneralGaussianProcess", "catlearn/estimator/general_kernel.py: default_lengthscale"]}
{"id": "C260", "title": "The general GP trains with its default kernel", "statement": "Training with the default kernel succeeds on finite data with a varying feature.", "quantifier": "all data, all minimizers", "why_tests_cant": "all data and minimizers", "anchors": ["catlearn/estimator/general_gp.py: GeneralGaussianProcess.train_gaussian_process", "catlearn/estimator/general_kernel.py: general_kernel"]}
{"id": "C261", "title": "The smooth general GP is a Gaussian process", "statement": "With the smooth kernel training succeeds on finite data with a varying feature; the scaling, widths and noise found are positive, and predictions are the posterior means of the gaussian kernel with these parameters on the cleaned and scaled data.", "quantifier": "all data, minimizers within the bounds, test sets", "why_tests_cant": "all data and minimizers", "anchors": ["catlearn/estimator/general_gp.py: GeneralGaussianProcess", "catlearn/estimator/general_kernel.py: smooth_kernel"]}
{"id": "C262", "title": "The bootstrap error is the .632 estimate of ridge regressions", "statement": "For a regularization and two or more bootstrap samples of which no training point is in all, the error that ridge regression reports is the square root of 0.368 times the mean squared training error of the ridge regression on all points plus 0.632 times the mean over the points of the mean squared error, at that point, of the ridge regressions on the samples that leave it out. Each of these regressions is the only minimiser of its own penalised squared error, and the computation does not fail.", "quantifier": "every data set, prior, positive regularization and list of two or more samples that leaves out each point at least once, for any decomposition routine that meets numpy's contract", "why_tests_cant": "tests compare one number for one data set; the identity must hold for every data set and sample", "anchors": ["catlearn/regression/ridge_regression.py:bootstrap_calc", "catlearn/regression/ridge_regression.py:_bootstrap_ERR", "catlearn/regression/ridge_regression.py:_RR_preSVD", "catlearn/regression/ridge_regression.py:_get_samples_svd"]}
{"id": "C263", "title": "The bootstrap search returns the best regularization it tried", "statement": "When every training point is left out by some sample, the regularization found with the bootstrap is positive, is one of the wsteps + 2 values of the first grid or of the wsteps values of each refinement, and has the smallest bootstrap error of all of them.", "quantifier": "every data set, sample list that leaves out each point, number of steps and number of refinements", "why_tests_cant": "the grid and the refinements depend on the data, so a test sees one path of the search", "anchors": ["catlearn/regression/ridge_regression.py:find_optimal_regularization", "catlearn/regression/ridge_regression.py:_bootstrap_master"]}
{"id": "C264", "title": "The bootstrap search uses the data for any set of samples", "statement": "The regularization found with the bootstrap is the best of those tried for any drawn samples, including samples that all have a point in common and a single sample.", "quantifier": "every data set and every list of samples", "why_tests_cant": "whether the samples leave out each point depends on the random draw", "anchors": ["catlearn/regression/ridge_regression.py:find_optimal_regularization", "catlearn/regression/ridge_regression.py:_bootstrap_ERR", "catlearn/regression/ridge_regression.py:_get_samples_svd"]}
{"id": "C265", "title": "The bootstrap samples are reproducible and leave the random state alone", "statement": "Two calls with the same number of points and samples draw the same samples whatever was drawn before, and the numbers the caller draws later do not depend on the call.", "quantifier": "every state of the global generator, number of points and number of samples", "why_tests_cant": "a test would have to compare the generator in all states", "anchors": ["catlearn/regression/ridge_regression.py:_get_bootstrap_samples"]}
{"id": "C266", "title": "Regularization returns the coefficients of the regularization it returns", "statement": "The coefficients returned with a regularization strength are the only minimiser of the squared error penalised with that strength, which is positive and the one that the bootstrap search finds; coefficients given by the caller are used in their place.", "quantifier": "every data set, sample list, step numbers, and given coefficients or none", "why_tests_cant": "needs all data sets and all results of the search", "anchors": ["catlearn/regression/ridge_regression.py:regularization"]}
{"id": "C267", "title": "The list of leave-one-out errors has the error for each regularization", "statement": "The list has one entry per regularization in the given order, the leave-one-out error of that regularization; it fails only for no regularizations.", "quantifier": "every data set and list of regularizations", "why_tests_cant": "must hold for lists of every length", "anchors": ["catlearn/regression/ridge_regression.py:_LOOCV_l"]}
{"id": "C268", "title": "Structures become rows of training data", "statement": "For two or more calculated structures with the same number of atoms, the training data that ML-NEB extracts have in row k the flattened positions, the energy and the negative flattened forces of structure k, and as many rows as structures.", "quantifier": "every list of at least two structures with equal numbers of atoms", "why_tests_cant": "all numbers of structures and atoms", "anchors": ["catlearn/optimize/io.py:ase_to_catlearn"]}
{"id": "C269", "title": "The extracted data identify the first and last structure", "statement": "The result names the first and the last of the given structures, works for a single structure, and rejects structures with different numbers of atoms.", "quantifier": "every list of structures", "why_tests_cant": "the mistake shows only for three or more structures, or for sizes that add up", "anchors": ["catlearn/optimize/io.py:ase_to_catlearn"]}
{"id": "C270", "title": "Flat arrays and positions convert both ways", "statement": "Turning a flat array into positions for n atoms succeeds exactly when there are positions of n atoms that flatten to it, and returns these; the variant without n splits the array into rows of three or fails for other lengths.", "quantifier": "every array and number of atoms", "why_tests_cant": "all lengths, including those that do not fit", "anchors": ["catlearn/optimize/io.py:array_to_ase", "catlearn/optimize/io.py:array_to_atoms"]}
{"id": "C271", "title": "An evaluated point is stored with its own energy and forces", "statement": "Evaluating a point appends to the training data that point, the energy of the structure with these positions, and the negative of the forces on this structure; the data before it are kept.", "quantifier": "every calculator, state, point and choice of energy", "why_tests_cant": "holds for the state after any history of evaluations", "anchors": ["catlearn/optimize/mlneb.py:eval_and_append", "catlearn/optimize/mlneb.py:get_energy_catlearn", "catlearn/optimize/mlneb.py:get_forces_catlearn"]}
{"id": "C272", "title": "Forces are evaluated at the requested point", "statement": "The forces requested for a point are those of the structure at this point.", "quantifier": "every state and point", "why_tests_cant": "wrong only if another point was evaluated before", "anchors": ["catlearn/optimize/mlneb.py:get_forces_catlearn"]}
{"id": "C273", "title": "All training energies of ML-NEB are of one kind", "statement": "The energies that the surrogate is trained on are all force-consistent if this is requested, all extrapolated ones otherwise; by default force-consistent energies are used where the calculator has them.", "quantifier": "every calculator with two energies, list of initial structures and evaluated point", "why_tests_cant": "test calculators have one energy", "anchors": ["catlearn/optimize/mlneb.py:__init__", "catlearn/optimize/io.py:ase_to_catlearn", "catlearn/optimize/mlneb.py:get_energy_catlearn"]}
{"id": "C274", "title": "The surrogate of ML-NEB does not depend on the zero of energy", "statement": "Adding a constant to all training energies gives the same Gaussian process and adds the constant to the number that is added to its predictions. The energies it sees are at most zero, zero for the highest one, and give back the training energies when that number is added; the prefactor of the kernel is positive and fixed; masked coordinates are removed from positions and gradients alike.", "quantifier": "every training set, constant, mask and path length", "why_tests_cant": "a relation between two runs for all constants", "anchors": ["catlearn/optimize/mlneb.py:train_gp_model"]}
{"id": "C275", "title": "The width of the surrogate starts within its bounds", "statement": "The initial width of the kernel lies within the bounds given to the hyperparameter optimization.", "quantifier": "every length of the path", "why_tests_cant": "fails for short paths only", "anchors": ["catlearn/optimize/mlneb.py:train_gp_model"]}
{"id": "C276", "title": "Results of a predicted path belong to its images", "statement": "Collecting the results of a path keeps positions and energies of all images and gives one energy and one uncertainty per image, the latter twice the predicted one at the unmasked coordinates; each interior image carries its uncertainty and the end points carry zero.", "quantifier": "every path, mask and predicted uncertainty", "why_tests_cant": "all numbers of images", "anchors": ["catlearn/optimize/mlneb.py:get_results_predicted_path"]}
{"id": "C277", "title": "The file of results agrees with the images", "statement": "The uncertainties in the csv file of results are those that the images carry.", "quantifier": "every path and positive predicted uncertainty", "why_tests_cant": "needs comparing two outputs for all paths", "anchors": ["catlearn/optimize/io.py:store_results_neb", "catlearn/optimize/mlneb.py:get_results_predicted_path"]}
{"id": "C278", "title": "The report has one row per step", "statement": "After any sequence of runs the table of ML-NEB has rows for steps zero up to the current step, in order.", "quantifier": "every history of runs on one object", "why_tests_cant": "ranges over all histories", "anchors": ["catlearn/optimize/io.py:print_info_neb", "catlearn/optimize/mlneb.py:run"]}
{"id": "C279", "title": "Reported barriers are those of the predicted path", "statement": "In every pass the forward and backward barriers are the highest energy of the path minus that of the first and last image: both are nonnegative and their difference is the energy of the reaction.", "quantifier": "every path and step of every run", "why_tests_cant": "the first pass after a restart differs from the others", "anchors": ["catlearn/optimize/mlneb.py:run", "catlearn/optimize/io.py:print_info_neb"]}
{"id": "C280", "title": "The surrogate optimization starts from the path it announces", "statement": "The first attempt of each pass starts from the initial path and the second one from the last predicted path, also when images are added in a sequential run; a sequential run starts with the image in the middle of the initial path; and a run can follow one that has converged.", "quantifier": "every history of stored paths", "why_tests_cant": "depends on the contents of files after any number of passes", "anchors": ["catlearn/optimize/mlneb.py:run", "catlearn/optimize/io.py:store_trajectory_neb"]}
{"id": "C281", "title": "Varying the features adds one fit per selected set", "statement": "For one training and one test subset, the sizes and errors grow, in the order of the selected sets, by the number of features of each set and by the error on the test subset of a model trained on these columns; the results are one fit per set and earlier results are dropped.", "quantifier": "every regression, pair of subsets, list of selected sets and earlier progress", "why_tests_cant": "all lists of sets; a branch for reusing results looks reachable but is not", "anchors": ["catlearn/learning_curve/placeholder.py:reg_feat_var", "catlearn/learning_curve/placeholder.py:reg_data_var"]}
{"id": "C282", "title": "A learning curve with varying features returns its results", "statement": "hierarchy with featselect_featvar=True returns sizes, errors and results for every split of the data.", "quantifier": "every data set, regression and selection of features", "why_tests_cant": "no test uses the option; it must hold for all hierarchies", "anchors": ["catlearn/learning_curve/learning_curve.py:hierarchy", "catlearn/learning_curve/placeholder.py:predict_subsets"]}
{"id": "C283", "title": "A learning curve with a fixed number of features is that of the selected columns", "statement": "When the search in one of the two largest subsets selects a set of feat_sub features, hierarchy with featselect_featconst=True returns exactly the learning curve without selection of the data reduced to these columns; when nothing is selected it returns empty lists.", "quantifier": "every data set, regression, selection and number of features", "why_tests_cant": "a relation between two runs over all hierarchies", "anchors": ["catlearn/learning_curve/learning_curve.py:hierarchy", "catlearn/learning_curve/placeholder.py:get_data_scale"]}
{"id": "C284", "title": "Every documented combination of arguments of hierarchy works", "statement": "hierarchy and feature_frequency run with their default limit, with or without global scaling, and for any number of features feat_sub.", "quantifier": "every data set and combination of arguments", "why_tests_cant": "all combinations of options", "anchors": ["catlearn/learning_curve/learning_curve.py:hierarchy", "catlearn/learning_curve/learning_curve.py:feature_frequency"]}
{"id": "C285", "title": "Features of a model are selected from its training data", "statement": "The features used by a model trained on a subset depend on this subset only, not on data it is tested on.", "quantifier": "every split of every data set", "why_tests_cant": "a leak between subsets leaves every single run plausible", "anchors": ["catlearn/learning_curve/learning_curve.py:hierarchy", "catlearn/learning_curve/placeholder.py:get_data_scale"]}
{"id": "C286", "title": "Frequencies of features come from the requested subset", "statement": "feature_frequency returns the sets selected in one of the two largest subsets, or with smallest=True in the last subset of the hierarchy, and None when no selection is requested.", "quantifier": "every data set with global scaling", "why_tests_cant": "all hierarchies and options", "anchors": ["catlearn/learning_curve/learning_curve.py:feature_frequency", "catlearn/learning_curve/placeholder.py:getstats"]}
{"id": "C287", "title": "Refining a penalty keeps the number of features", "statement": "alpha_refinment started from a penalty with k features returns a penalty that is not smaller, at most upper^refsteps times as large, and also keeps exactly k features; one step returns at least every penalty of its grid with k features.", "quantifier": "every lasso path, penalty, grid and number of steps", "why_tests_cant": "the number of features need not be monotone in the penalty", "anchors": ["catlearn/learning_curve/feature_selection.py:alpha_refinment"]}
{"id": "C288", "title": "Each generation is recorded with the statistics of its population", "statement": "The record of an evolution has one row per generation, with the number of the generation, the largest score in the population (attained, and exceeded by none), the mean of the scores, and the homogeneity, all of the population before that generation is bred.", "quantifier": "every number of generations, population and sequence of random choices", "why_tests_cant": "the population differs in every run", "anchors": ["catlearn/featurize/site_stability.py:GAFeatureSelection.evolve", "catlearn/featurize/site_stability.py:max_population_fitness", "catlearn/featurize/site_stability.py:mean_population_fitness"]}
{"id": "C289", "title": "Data attached to a structure are returned as they were last set", "statement": "For a structure extended with the CatLearn methods, after any sequence of attaching features, neighbour lists and graphs, reading them, changing the geometry and extending it again, reading a kind of data returns the value last attached of that kind, or nothing, and attaching and reading never changes the geometry.", "quantifier": "every history of operations on a structure", "why_tests_cant": "histories are unbounded; a test fixes one", "anchors": ["catlearn/api/ase_atoms_api.py:extend_atoms_class", "catlearn/api/ase_atoms_api.py:set_features", "catlearn/api/ase_atoms_api.py:get_features"]}
{"id": "C290", "title": "A fingerprint generator uses the neighbour list of the current geometry", "statement": "The neighbour list a feature generator obtains for a structure is always that of its present geometry.", "quantifier": "every structure and history of changes between calls", "why_tests_cant": "needs all histories of changes of a structure", "anchors": ["catlearn/featurize/base.py:get_neighborlist", "catlearn/featurize/base.py:make_neighborlist"]}
{"id": "C291", "title": "Graphs of structures respect the given cutoffs", "statement": "The graph made from a structure with given cutoff radii uses a neighbour list for these radii.", "quantifier": "every structure, cutoffs and attached data", "why_tests_cant": "depends on what was attached to the structure before", "anchors": ["catlearn/api/networkx_graph_api.py:ase_to_networkx"]}
{"id": "C292", "title": "Connectivity is added only where it is missing", "statement": "images_connectivity returns the same structures in the same order, with the matrix of its geometry for every structure that had none and everything else unchanged; with the check requested it warns about exactly those new matrices that fail it.", "quantifier": "every list of structures, with or without matrices", "why_tests_cant": "lists of any length with any mixture of prepared and unprepared structures", "anchors": ["catlearn/api/ase_atoms_api.py:images_connectivity"]}
{"id": "C293", "title": "Connectivity used for features is that of the present geometry", "statement": "After images_connectivity the matrix of each structure belongs to its present geometry.", "quantifier": "every list of structures and history of changes", "why_tests_cant": "needs structures changed after an earlier call", "anchors": ["catlearn/api/ase_atoms_api.py:images_connectivity"]}
{"id": "C294", "title": "Pair distances are always computed anew", "statement": "images_pair_distances stores for each structure the distances of its present geometry, replacing earlier ones, and changes nothing else.", "quantifier": "every list of structures and either boundary treatment", "why_tests_cant": "needs structures changed after an earlier call", "anchors": ["catlearn/api/ase_atoms_api.py:images_pair_distances"]}
{"id": "C295", "title": "A fingerprint passes the label check exactly if it has one value per label", "statement": "check_labels succeeds if and only if the number of values equals the number of labels.", "quantifier": "every list of labels and fingerprint", "why_tests_cant": "for all lengths", "anchors": ["catlearn/featurize/base.py:check_labels"]}
{"id": "C296", "title": "Neighbour lists count periodic images and are symmetric", "statement": "The neighbour list has one sorted entry per atom, in which atom j occurs exactly as often as it has periodic images, other than the atom itself, closer than the sum of both cutoffs; atom j is as often a neighbour of atom i as i is of j.", "quantifier": "every number of atoms, cell, cutoffs and order in which ASE returns neighbours", "why_tests_cant": "ranges over all geometries and periodic images", "anchors": ["catlearn/utilities/neighborlist.py:ase_neighborlist"]}
{"id": "C297", "title": "A structure's graph connects exactly the atoms in range", "statement": "The graph has one node per atom with its atomic number and an edge between two atoms if and only if a periodic image of one is in range of the other.", "quantifier": "every structure and cutoffs", "why_tests_cant": "ranges over all geometries and periodic images", "anchors": ["catlearn/api/networkx_graph_api.py:ase_to_networkx", "catlearn/utilities/neighborlist.py:ase_neighborlist"]}
{"id": "C298", "title": "The connectivity matrix marks exactly the pairs in range", "statement": "With given cutoffs the connectivity matrix is square, symmetric, and has a one exactly where an image of the second atom is in range of the first, and zero elsewhere.", "quantifier": "every structure and cutoffs", "why_tests_cant": "ranges over all geometries and periodic images", "anchors": ["catlearn/utilities/neighborlist.py:ase_connectivity"]}
{"id": "C299", "title": "The connectivity matrix counts multiple connections and accepts all documented inputs", "statement": "Entries of the connectivity matrix larger than one are the numbers of connections in small cells, the cutoffs may be left out, and an attached neighbour list is used.", "quantifier": "every structure, with or without cutoffs or attached list", "why_tests_cant": "small cells with several images in range are a special case", "anchors": ["catlearn/utilities/neighborlist.py:ase_connectivity"]}
{"id": "C300", "title": "Rate control can be obtained for every state of an energy landscape", "statement": "The name of every state of the energy landscape can be passed to the rate control query.", "quantifier": "every state of every landscape", "why_tests_cant": "state names come from the database", "anchors": ["catlearn/api/catmap.py:get_rate_control"]}
{"id": "C301", "title": "Particle vectors with given atom types depend on the structure only", "statement": "With the atom types given, the vector of distributions or connections of a structure is the same whatever was computed before, and all have the same length.", "quantifier": "every list of structures and atom types", "why_tests_cant": "depends on the order of calls", "anchors": ["catlearn/fingerprint/particle.py:distribution_vec", "catlearn/fingerprint/particle.py:connections_vec"]}
{"id": "C302", "title": "Particle vectors do not depend on the order of structures and leave structures unchanged", "statement": "Also without given atom types the vector of a structure does not depend on which structures came before, has the same length for all structures, and computing it does not change the structure.", "quantifier": "every list of structures with or without atom types", "why_tests_cant": "depends on the order of calls", "anchors": ["catlearn/fingerprint/particle.py:distribution_vec", "catlearn/fingerprint/particle.py:connections_vec", "catlearn/fingerprint/particle.py:rdf_vec"]}
{"id": "C303", "title": "Grid of penalties of the line search", "statement": "The LASSO line search of RegressionFit tries the given number of penalties, starting at the upper bound, ending at the lower bound and falling by a constant factor below one.", "quantifier": "every pair of positive bounds with lower < upper, every number of steps of at least two", "why_tests_cant": "no finite set of bounds covers all grids", "anchors": ["catlearn/regression/scikit_wrapper.py:RegressionFit._lasso"]}
{"id": "C304", "title": "Feature selection by the LASSO line search", "statement": "A successful selection with line search keeps the fit of the largest penalty in the grid that has at least the requested number of non-zero coefficients, and accepts exactly that many features, all with non-zero coefficients and none weaker than a rejected one. It fails exactly when every penalty of the grid leaves fewer non-zero coefficients than requested.", "quantifier": "every requested size, every grid and every outcome of the LASSO fits", "why_tests_cant": "the fits are external and the first suitable penalty depends on all of them", "anchors": ["catlearn/regression/scikit_wrapper.py:RegressionFit.feature_select", "catlearn/regression/scikit_wrapper.py:RegressionFit._lasso"]}
{"id": "C305", "title": "Ranking of features by regression coefficients", "statement": "With a requested size, feature_select splits all features into accepted and rejected ones, the accepted ones having the largest absolute coefficients of the chosen method; an unknown method is refused.", "quantifier": "every method, size and vector of coefficients", "why_tests_cant": "all orders and ties of coefficients matter", "anchors": ["catlearn/regression/scikit_wrapper.py:RegressionFit.feature_select", "catlearn/regression/scikit_wrapper.py:RegressionFit._get_coefficients"]}
{"id": "C306", "title": "Features without a requested size", "statement": "With the default size (None) feature_select does not put the same feature among both the accepted and the rejected ones.", "quantifier": "every method and every fit", "why_tests_cant": "holds or fails for every fit alike, not only for a sample", "anchors": ["catlearn/regression/scikit_wrapper.py:RegressionFit.feature_select"]}
{"id": "C307", "title": "Error of the fitted linear model", "statement": "When predict=True is passed, RegressionFit returns the average error of the predictions of the fitted model.", "quantifier": "every method, data set and prediction", "why_tests_cant": "must hold whatever the fit returns", "anchors": ["catlearn/regression/scikit_wrapper.py:RegressionFit._get_coefficients", "catlearn/regression/cost_function.py:get_error"]}
{"id": "C308", "title": "Main elements of a CatApp site", "statement": "The first element described by the CatApp fingerprint is a most common element of the ligand atoms. The second equals the first exactly when the ligands are of a single element; with two elements both are described. The site code is 1 for a single element and 2 otherwise.", "quantifier": "every non-empty list of ligand atoms", "why_tests_cant": "all compositions, counts and ties of the ligands matter", "anchors": ["catlearn/fingerprint/catapp.py:CatappFingerprintGenerator.catapp_AB"]}
{"id": "C309", "title": "Second element of a CatApp site with three elements", "statement": "The second element described by the CatApp fingerprint is the second most common one of the ligand atoms.", "quantifier": "every list of ligand atoms with at least two elements", "why_tests_cant": "needs three or more elements with different counts", "anchors": ["catlearn/fingerprint/catapp.py:CatappFingerprintGenerator.catapp_AB"]}
{"id": "C310", "title": "CatApp fingerprint and order of atoms", "statement": "Listing the same ligand atoms in another order gives the same main elements.", "quantifier": "every list of ligand atoms and every permutation of it", "why_tests_cant": "quantifies over all permutations", "anchors": ["catlearn/fingerprint/catapp.py:CatappFingerprintGenerator.catapp_AB"]}
{"id": "C311", "title": "Concentration code of the CatApp fingerprint", "statement": "The concentration code of a surface is the number of distinct elements of its termination: a pure surface gets 1.", "quantifier": "every termination string", "why_tests_cant": "all formula strings matter, with every count in them", "anchors": ["catlearn/fingerprint/catapp.py:CatappFingerprintGenerator.catapp_AB"]}
{"id": "C312", "title": "Contents of the CatApp fingerprint", "statement": "A CatApp fingerprint holds, in the order of its distinct names, the properties of the first element, those of the second, their sums with missing values counted as zero, and the codes for concentration, facet and site; its length equals the number of names.", "quantifier": "every structure for which a fingerprint is returned, every table of element data", "why_tests_cant": "the table may miss any value for any element", "anchors": ["catlearn/fingerprint/catapp.py:CatappFingerprintGenerator.catapp_AB"]}
{"id": "C313", "title": "Adsorbate atoms found from a reference slab", "statement": "All indices returned by slab_positions2ads_index are atoms of elements of the adsorbate. For every such element the number returned without repetition is the smaller of the number in the adsorbate and in the structure, and those returned lie at least as far from the slab atoms of their element as those not returned, unless all atoms of the element belong to the adsorbate: then all of them are returned.", "quantifier": "every structure, slab, set of distances and adsorbate composition for which a list is returned", "why_tests_cant": "all geometries and compositions, including ties, matter", "anchors": ["catlearn/featurize/adsorbate_prep.py:slab_positions2ads_index"]}
{"id": "C314", "title": "Composition of the adsorbate found from a reference slab", "statement": "The atoms returned by slab_positions2ads_index are distinct and their elements are exactly those of the adsorbate; otherwise an error is raised.", "quantifier": "every structure, slab and adsorbate composition", "why_tests_cant": "all compositions matter, also those with repeated or absent elements", "anchors": ["catlearn/featurize/adsorbate_prep.py:slab_positions2ads_index"]}
{"id": "C315", "title": "Fitness of a feature subset", "statement": "For usable data the fitness of the genetic algorithm is minus the root mean squared error on the test data, in the units of the targets, of the posterior mean of the Gaussian process for the standardised training data; it is never positive and zero exactly when every prediction is exact. The second objective is minus the number of features, or start minus end time.", "quantifier": "every training and test set, every subset, all three fitness functions", "why_tests_cant": "all data sets matter; tests evaluate one data set", "anchors": ["catlearn/ga/predictors.py:minimize_error", "catlearn/ga/predictors.py:minimize_error_descriptors", "catlearn/ga/predictors.py:minimize_error_time"]}
{"id": "C316", "title": "Fitness and the units of features", "statement": "Changing the unit and origin of any feature, in training and test data alike, does not change the fitness.", "quantifier": "every usable data set and every affine change of its features with non-zero factors", "why_tests_cant": "quantifies over all data sets and all changes of units", "anchors": ["catlearn/ga/predictors.py:minimize_error", "catlearn/preprocess/scaling.py:standardize"]}
{"id": "C317", "title": "Fitness and the units of targets", "statement": "Replacing the targets of training and test data by a*y+b with a > 0 multiplies the error part of the fitness by a, so subsets are ranked the same.", "quantifier": "every usable data set and all a > 0 and b", "why_tests_cant": "quantifies over all data sets and all changes of units", "anchors": ["catlearn/ga/predictors.py:minimize_error"]}
{"id": "C318", "title": "Covariance of the seuclidean kernel", "statement": "sqe_kernel returns exp(-d/2) of the standardised Euclidean distance d: between 0 and 1, and for one data set symmetric with ones on the diagonal and positive semidefinite.", "quantifier": "every data set, every positive width, with and without log scale", "why_tests_cant": "positive semidefiniteness quantifies over all data sets and vectors", "anchors": ["catlearn/regression/gpfunctions/kernels.py:sqe_kernel"]}
{"id": "C319", "title": "Seuclidean kernel is Gaussian", "statement": "sqe_kernel is, as documented, the Gaussian kernel of the given widths.", "quantifier": "every data set and width", "why_tests_cant": "tests check no values of this kernel", "anchors": ["catlearn/regression/gpfunctions/kernels.py:sqe_kernel"]}
{"id": "C320", "title": "Scaled kernel returns a covariance", "statement": "scaled_sqe_kernel returns a covariance matrix for some parameters.", "quantifier": "every list of parameters, every data set", "why_tests_cant": "claims something about all parameter lists", "anchors": ["catlearn/regression/gpfunctions/kernels.py:scaled_sqe_kernel"]}
{"id": "C321", "title": "Covariance of the Aitchison-Aitken kernel", "statement": "AA_kernel gives a symmetric, positive semidefinite covariance that is largest for equal rows.", "quantifier": "every data set, every 0 < l < 1 and all c > 1", "why_tests_cant": "positive semidefiniteness quantifies over all data sets and vectors", "anchors": ["catlearn/regression/gpfunctions/kernels.py:AA_kernel"]}
{"id": "C322", "title": "Parameters of the Aitchison-Aitken kernel", "statement": "AA_kernel reads its parameters as the documented [l, n, c], and the weights of one feature sum to one over its c categories.", "quantifier": "all parameters and data sets", "why_tests_cant": "all parameter values matter", "anchors": ["catlearn/regression/gpfunctions/kernels.py:AA_kernel"]}
{"id": "C323", "title": "Scaling of hyperparameters", "statement": "rescale_hyperparameters undoes hyperparameters.", "quantifier": "every prepared list of kernels and all non-zero standard deviations", "why_tests_cant": "all kernel lists matter", "anchors": ["catlearn/regression/gpfunctions/hyperparameter_scaling.py:hyperparameters", "catlearn/regression/gpfunctions/hyperparameter_scaling.py:rescale_hyperparameters"]}
{"id": "C324", "title": "Geometry hash and order", "statement": "Listing the atoms or the cell vectors of a structure in another order, or atoms displaced by lattice vectors, does not change its geometry hash when no two atoms share a position.", "quantifier": "every structure and every permutation of its atoms and cell vectors", "why_tests_cant": "quantifies over all structures and permutations", "anchors": ["catlearn/utilities/utilities.py:geometry_hash"]}
{"id": "C325", "title": "Geometry hash and elements", "statement": "Structures with the same positions but different elements have different geometry hashes (for an injective digest).", "quantifier": "all positions and all lists of atomic numbers", "why_tests_cant": "quantifies over all pairs of structures", "anchors": ["catlearn/utilities/utilities.py:geometry_hash"]}
{"id": "C326", "title": "Geometry hash and rounding", "statement": "Structures whose positions agree to 3 decimal places have the same geometry hash.", "quantifier": "all pairs of such structures", "why_tests_cant": "needs near ties in the order of atoms", "anchors": ["catlearn/utilities/utilities.py:geometry_hash"]}
{"id": "C327", "title": "Geometry hash of large structures", "statement": "Displacing one atom by an Angstrom changes the geometry hash, whatever the number of atoms.", "quantifier": "structures of any size", "why_tests_cant": "needs structures with more than 333 atoms", "anchors": ["catlearn/utilities/utilities.py:geometry_hash"]}
{"id": "C328", "title": "Geometry hash has no side effects", "statement": "geometry_hash returns a hash under every supported version of Python and leaves the structure it is given unchanged.", "quantifier": "every structure, Python 2 and 3", "why_tests_cant": "no test calls it; all structures matter", "anchors": ["catlearn/utilities/utilities.py:geometry_hash"]}
{"id": "C329", "title": "Formula of a prototype", "statement": "The formula written for a structure gives the element and the multiplicity of every site, omitting multiplicities of 1.", "quantifier": "all sites, multiplicities and structures", "why_tests_cant": "all multiplicities matter; tests use none", "anchors": ["catlearn/fingerprint/prototype.py:PrototypeFingerprintGenerator.write_proto_input"]}
{"id": "C330", "title": "Sites of a prototype", "statement": "The description of the sites of a prototype can be created under every supported version of Python.", "quantifier": "every dictionary of sites, Python 2 and 3", "why_tests_cant": "no test creates one", "anchors": ["catlearn/fingerprint/prototype.py:PrototypeSites"]}
{"id": "C331", "title": "Table of prototypes", "statement": "The table passed to Magpie has a row for every structure in their order: its formula, its position in the list and the requested properties, empty where a structure lacks one. It is refused exactly when a site is not among the properties or a site of a structure cannot be written; a property requested twice is refused.", "quantifier": "all lists of structures, sites and properties", "why_tests_cant": "all lists of attributes, present or missing, matter", "anchors": ["catlearn/fingerprint/prototype.py:PrototypeFingerprintGenerator.write_proto_input"]}
{"id": "C332", "title": "Fingerprints of prototypes", "statement": "generate_all pairs every row of the table with exactly the fingerprints that Magpie reports under its id, in the order of the structures, in whatever order Magpie reports them.", "quantifier": "all structures and all outputs of Magpie", "why_tests_cant": "quantifies over all outputs of an external program", "anchors": ["catlearn/fingerprint/prototype.py:PrototypeFingerprintGenerator.generate_all"]}
{"id": "C333", "title": "Magpie runs are independent", "statement": "The outcome of a Magpie run does not depend on files left by earlier runs: a failing run never returns an earlier result; a successful run with delete_temp leaves no files.", "quantifier": "all contents of the temporary directory and all behaviours of Magpie", "why_tests_cant": "needs arbitrary leftovers of crashed runs", "anchors": ["catlearn/fingerprint/prototype.py:PrototypeFingerprintGenerator.generate", "catlearn/fingerprint/voro.py:VoronoiFingerprintGenerator.generate"]}
{"id": "C334", "title": "Files of Voronoi fingerprints", "statement": "Every structure is written to a file of its own, also when structures share a formula, and the table passed to Magpie lists the file, the position in the list and the formula of each.", "quantifier": "all lists of structures", "why_tests_cant": "all lists of formulas, of any length, matter", "anchors": ["catlearn/fingerprint/voro.py:VoronoiFingerprintGenerator.write_voro_input"]}
{"id": "C335", "title": "Rows of Voronoi fingerprints", "statement": "Row i of the Voronoi fingerprints belongs to structure i.", "quantifier": "all lists of structures and all outputs of Magpie", "why_tests_cant": "quantifies over all outputs of an external program", "anchors": ["catlearn/fingerprint/voro.py:VoronoiFingerprintGenerator.generate"]}
{"id": "C336", "title": "Structures of a database", "statement": "database_to_list returns one structure per selected row, in their order, with its elements, connectivity, id, creation time and stored key-value pairs, so that dbid, ctime and delta_energy give the stored values (nan where the row has none); rows with different ids give different dbid features.", "quantifier": "all lists of rows with all stored values", "why_tests_cant": "all rows, with or without each stored value, matter", "anchors": ["catlearn/api/ase_atoms_api.py:database_to_list", "catlearn/fingerprint/adsorbate.py:dbid", "catlearn/fingerprint/adsorbate.py:ctime", "catlearn/fingerprint/adsorbate.py:delta_energy"]}
{"id": "C337", "title": "Features that repeat stored values", "statement": "delta_energy gives the stored number and db_size gives the stored number of layers, the number of termination atoms, and the stored number of adsorbates divided by it; a value missing in the structure is nan and nothing else is.", "quantifier": "all structures and all stored values", "why_tests_cant": "all combinations of missing and stored values matter", "anchors": ["catlearn/fingerprint/adsorbate.py:delta_energy", "catlearn/fingerprint/adsorbate.py:db_size"]}
{"id": "C338", "title": "Names of CatApp entries", "statement": "Entries with different adsorbate, surface or facet have different names.", "quantifier": "all pairs of entries", "why_tests_cant": "a counterexample needs a coincidence between surface and facet", "anchors": ["catlearn/fingerprint/catapp.py:CatappFingerprintGenerator.name"]}
{"id": "C339", "title": "Masses do not depend on the order of atoms", "statement": "element_mass_vec is the same for structures with the same masses in another order.", "quantifier": "all structures and all permutations", "why_tests_cant": "ranges over all permutations", "anchors": ["catlearn/fingerprint/standard.py:element_mass_vec"]}
{"id": "C340", "title": "Elements of adsorbates", "statement": "The elements found for the bags of adsorbates are exactly those of adsorbate atoms of training or test structures, in increasing order without repetition, and do not depend on the order of structures or on which are test structures.", "quantifier": "all training and test structures", "why_tests_cant": "ranges over all lists of structures and permutations", "anchors": ["catlearn/featurize/setup.py:FeatureGenerator._get_ads_atom_types"]}
{"id": "C341", "title": "Trajectories of sites", "statement": "After writing the trajectories of a featurizer, the files of each site hold the structure of the material and of the defect of that site; no other file is changed.", "quantifier": "all folders and all lists of sites", "why_tests_cant": "all earlier contents of the folder and all combinations of indices matter", "anchors": ["catlearn/featurize/site_stability.py:SiteFeaturizer.write_site_trajectories"]}
{"id": "C342", "title": "Reference energies of a folder", "statement": "The dictionary of reference energies has exactly one energy for every formula among the trajectory files, independent of the order in which the system lists the folder.", "quantifier": "all folder contents and listing orders", "why_tests_cant": "the order of os.listdir is not specified", "anchors": ["catlearn/featurize/site_stability.py:traj_to_reference_dict"]}
{"id": "C343", "title": "Saved data sets are read back", "statement": "A data set that is saved and then read has the same columns and values, when no column is called INDEX or 'Unnamed: 0'.", "quantifier": "all rectangular tables", "why_tests_cant": "ranges over all tables and column names", "anchors": ["catlearn/featurize/site_stability.py:SiteFeaturizer.save_dataset", "catlearn/featurize/site_stability.py:get_df"]}
{"id": "C344", "title": "EMT stability of a site", "statement": "For every index of an atom, the EMT site stability is the energy of the material minus that of the material without exactly this atom and of the free atom, and does not depend on the zero of energy of any element.", "quantifier": "all energy functions, materials and indices", "why_tests_cant": "ranges over all energy functions", "anchors": ["catlearn/featurize/site_stability.py:Material.get_EMT_site_stability"]}
{"id": "C345", "title": "Default size and step of iterative screening", "statement": "With its default size and step, iterative screening accepts any data with more than twice as many features as data points.", "quantifier": "all numbers of data points and features", "why_tests_cant": "ranges over all sizes; the boundary comes from rounding n / log n", "anchors": ["catlearn/preprocess/feature_elimination.py:FeatureScreening._dimension_check"]}
{"id": "C346", "title": "Given size and step of screening", "statement": "Given a size and a step, screening starts exactly if there are more than twice as many features as the size (more than the size without iteration) and the step is smaller than the size; the values given are used unchanged.", "quantifier": "all numbers of data points and features, sizes and steps", "why_tests_cant": "ranges over all sizes", "anchors": ["catlearn/preprocess/feature_elimination.py:FeatureScreening._dimension_check"]}
{"id": "C347", "title": "Projections are fitted to training data only", "statement": "For pls, pca and spca the projected training data do not depend on the test data, rows keep their place, a test row equal to a training row is projected to the same values, and test sets can be projected together or apart. A number of components that is not positive is refused.", "quantifier": "all estimators that project row by row, all data", "why_tests_cant": "independence of the test data is a statement about all pairs of runs", "anchors": ["catlearn/preprocess/feature_extraction.py:pls", "catlearn/preprocess/feature_extraction.py:pca", "catlearn/preprocess/feature_extraction.py:spca"]}
{"id": "C348", "title": "Composition names tell compositions apart", "statement": "Structures with the same composition name have the same number of atoms of every element, also when the names come from different processes.", "quantifier": "all structures and all orders of Python sets", "why_tests_cant": "ranges over all structures and all set orders", "anchors": ["catlearn/featurize/site_stability.py:composition_name", "catlearn/featurize/slab_utilities.py:stoichiometry"]}
{"id": "C349", "title": "Composition names are reproducible", "statement": "A structure has the same composition name, and its sites the same folders, in every run of a program.", "quantifier": "all structures and all orders of Python sets", "why_tests_cant": "the order of a set of strings changes between processes", "anchors": ["catlearn/featurize/site_stability.py:composition_name", "catlearn/featurize/slab_utilities.py:stoichiometry"]}
{"id": "C350", "title": "Default length scales", "statement": "The default length scale of the general kernels is the standard deviation of all feature values for dimension 'single' and of each feature for 'features'; every other dimension is refused.", "quantifier": "all rectangular feature matrices", "why_tests_cant": "ranges over all matrices", "anchors": ["catlearn/estimator/general_kernel.py:default_lengthscale"]}
{"id": "C351", "title": "Iterative screening with its linear models", "statement": "Iterative screening of features by ridge or elastic net regression, and by LASSO when every fit finds a penalty with enough non-zero coefficients, returns a ranking in which every feature occurs exactly once and accepts exactly the requested number, or at most that many when a random feature is added for comparison.", "quantifier": "all data, sizes, steps and results of the linear models", "why_tests_cant": "ranges over every sequence of fits", "anchors": ["catlearn/preprocess/feature_elimination.py:FeatureScreening.iterative_screen", "catlearn/regression/ridge_regression.py:RidgeRegression", "catlearn/regression/scikit_wrapper.py:RegressionFit.feature_select"]}
{"id": "C352", "title": "LASSO screening ends with what it has", "statement": "Iterative screening by LASSO returns a ranking also when a fit has fewer non-zero coefficients than the step.", "quantifier": "all data and results of LASSO", "why_tests_cant": "depends on how many coefficients the fits set to zero", "anchors": ["catlearn/preprocess/feature_elimination.py:FeatureScreening._regression_ordering", "catlearn/regression/scikit_wrapper.py:RegressionFit.feature_select"]}
{"id": "C353", "title": "Layout of convoluted fingerprints", "statement": "Every vector of conv_bulk and conv_term holds, for each elemental property in order and then the magnetic moment, the self-convolution over the subset, followed by the convolutions over bonds in the same order; a value is missing exactly where a needed value is, and there are as many values as names.", "quantifier": "all tables of elements, properties, structures, subsets and connectivity matrices", "why_tests_cant": "ranges over all structures and sets of properties", "anchors": ["catlearn/fingerprint/convoluted.py:ConvolutedFingerprintGenerator.conv_bulk", "catlearn/fingerprint/convoluted.py:ConvolutedFingerprintGenerator.conv_term"]}
{"id": "C354", "title": "Names of conv_bulk", "statement": "With the default properties, name k of conv_bulk is that of the property at position k, and no name occurs twice among the names of conv_bulk and conv_term.", "quantifier": "all positions", "why_tests_cant": "two lists of names in different files must agree with a third", "anchors": ["catlearn/fingerprint/convoluted.py:ConvolutedFingerprintGenerator.conv_bulk"]}
{"id": "C355", "title": "Names of conv_term", "statement": "With the default properties, name k of conv_term is that of the property at position k.", "quantifier": "all positions", "why_tests_cant": "two lists of names in different files must agree with a third", "anchors": ["catlearn/fingerprint/convoluted.py:ConvolutedFingerprintGenerator.conv_term"]}
{"id": "C356", "title": "Names follow the properties asked for", "statement": "With properties chosen by the user, conv_bulk and conv_term return a vector and name its entries after these properties.", "quantifier": "all lists of properties", "why_tests_cant": "ranges over all lists of properties", "anchors": ["catlearn/fingerprint/convoluted.py:ConvolutedFingerprintGenerator.conv_bulk", "catlearn/fingerprint/convoluted.py:check_length"]}
{"id": "C357", "title": "Names of bulk features", "statement": "Name k of bulk_summation, bulk_average and bulk_std is that of the property at position k with the statistic as suffix.", "quantifier": "all positions", "why_tests_cant": "lists of names must agree with lists of properties", "anchors": ["catlearn/fingerprint/bulk.py:BulkFingerprintGenerator.bulk_summation", "catlearn/fingerprint/bulk.py:BulkFingerprintGenerator.bulk_average", "catlearn/fingerprint/bulk.py:BulkFingerprintGenerator.bulk_std"]}
{"id": "C358", "title": "Bulk features report the bulk modulus", "statement": "The bulk modulus among the bulk features is the statistic of the bulk moduli of the elements.", "quantifier": "all structures and tables of elements", "why_tests_cant": "ranges over all structures; a missing property looks like missing data", "anchors": ["catlearn/fingerprint/bulk.py:default_extra_params", "catlearn/featurize/periodic_table_data.py:list_mendeleev_params"]}
{"id": "C359", "title": "Bulk names follow extra_params", "statement": "With extra_params chosen by the user, the bulk features have as many names as values.", "quantifier": "all lists of extra properties", "why_tests_cant": "ranges over all lists of properties", "anchors": ["catlearn/fingerprint/bulk.py:BulkFingerprintGenerator.__init__", "catlearn/fingerprint/bulk.py:BulkFingerprintGenerator.bulk_summation"]}
{"id": "C360", "title": "Separate noise for values and derivatives", "statement": "Appending a noise_multi kernel adds the square of its first parameter to the variance of every training value and that of its second to the variance of every training derivative, and changes no other covariance, none with test points in particular; with equal parameters it is the regularization.", "quantifier": "all kernel lists, training and test points, with and without gradients", "why_tests_cant": "ranges over all matrices and parameters", "anchors": ["catlearn/regression/gpfunctions/kernels.py:noise_multi_kernel", "catlearn/regression/gpfunctions/covariance.py:get_covariance"]}
{"id": "C361", "title": "Constants for values and derivatives give a covariance", "statement": "A constant_multi kernel that passes the set-up gives a positive semidefinite covariance of values and derivatives.", "quantifier": "all constants and training points", "why_tests_cant": "ranges over all vectors", "anchors": ["catlearn/regression/gpfunctions/kernels.py:constant_multi_kernel", "catlearn/regression/gpfunctions/kernel_setup.py:_constant_multi_setup"]}
{"id": "C362", "title": "Models with different kernel lists do not influence each other", "statement": "Building, optimizing and updating models acts on each model as if it were alone, as long as no two of them were given the same list of kernels: whatever is done with models of other lists, the predictions, uncertainties and training predictions of a model stay the same.", "quantifier": "all histories of building models, optimizing their hyperparameters and updating their data, with any number of models and lists", "why_tests_cant": "ranges over all interleavings of operations on models that are kept in one program", "anchors": ["catlearn/regression/gaussian_process.py:GaussianProcess.__init__", "catlearn/regression/gaussian_process.py:GaussianProcess.optimize_hyperparameters", "catlearn/regression/gaussian_process.py:GaussianProcess.update_data"]}
{"id": "C363", "title": "Models built from one kernel list are independent", "statement": "Two models that were built from the same list of kernels are independent: optimizing the hyperparameters of one does not change what the other predicts.", "quantifier": "all kernel lists and numbers of models built from them", "why_tests_cant": "depends on which objects two models share, over histories of calls", "anchors": ["catlearn/regression/gpfunctions/kernel_setup.py:prepare_kernels", "catlearn/regression/gpfunctions/kernel_setup.py:list2kdict", "catlearn/regression/gaussian_process.py:GaussianProcess.optimize_hyperparameters"]}
{"id": "C364", "title": "A kernel list can be used again", "statement": "A list of kernels can be used for several models: each is the model that a fresh copy of the list gives, also when the models have different numbers of features and the kernel has a scalar width.", "quantifier": "all kernel lists, and sequences of models with any data", "why_tests_cant": "ranges over all sequences of models built from one mutable list", "anchors": ["catlearn/regression/gpfunctions/kernel_setup.py:prepare_kernels", "catlearn/regression/gpfunctions/kernel_setup.py:_gaussian_setup", "catlearn/regression/gaussian_process.py:GaussianProcess.__init__"]}
{"id": "C365", "title": "The minimizer always has a trained surrogate", "statement": "With one of the implemented kernels and a positive noise, every pass of MLMin.run over consistent training data obtains a Gaussian process on the free coordinates of all structures: the covariance can be inverted whatever structures are repeated, all hyperparameters are positive and within the bounds of the model, the regularization is zero, and the prior is the highest energy.", "quantifier": "all numbers of passes, training sets, masks, positive noises, the three kernels and all optimisers that respect bounds", "why_tests_cant": "ranges over all training histories and results of the hyperparameter optimisation", "anchors": ["catlearn/optimize/mlmin.py:MLMin.run", "catlearn/optimize/mlmin.py:fit"]}
{"id": "C366", "title": "Hyperparameters of the minimizer's surrogate", "statement": "The hyperparameters and bounds of the surrogate of MLMin.run after any passes are: the documented starting values and bounds of the kernel for the number of structures, scaled by the spread of the energies; optimised with six or more structures unless the kernel is SQE_fixed; and from the first successful optimisation on, the result of the preceding pass with its bounds. SQE_fixed keeps unit variance and length scale 0.4 with two or more structures.", "quantifier": "all histories of passes, kernels, noises, energies and optimisers that respect bounds", "why_tests_cant": "ranges over all histories of passes and optimiser results", "anchors": ["catlearn/optimize/mlmin.py:MLMin.run", "catlearn/optimize/mlmin.py:fit"]}
{"id": "C367", "title": "The minimizer's surrogate does not depend on the zero of energy", "statement": "Adding a constant to all energies gives the same Gaussian processes in every pass of MLMin.run, with a prior shifted by the constant, or the same error.", "quantifier": "all kernels, noises, training histories, constants and linear algebra routines", "why_tests_cant": "ranges over all histories and all constants", "anchors": ["catlearn/optimize/mlmin.py:MLMin.run"]}
{"id": "C368", "title": "The documented kernels of the minimizer are available", "statement": "MLMin.run accepts the documented kernels SQE (fixed hyperparameters), SQE_opt and ARD_SQE, and with SQE the hyperparameters are not optimised.", "quantifier": "all training sets with two or more structures", "why_tests_cant": "ranges over all training data; needs a run with enough structures", "anchors": ["catlearn/optimize/mlmin.py:MLMin.run"]}
{"id": "C369", "title": "A failed optimisation falls back to the last optimised hyperparameters", "statement": "When the optimisation of the hyperparameters fails after an earlier success, MLMin.run uses the last optimised hyperparameters, as it prints.", "quantifier": "all data, noises and pairs of a successful and a failing optimisation", "why_tests_cant": "depends on which object is shared between the model and the saved list, across passes", "anchors": ["catlearn/optimize/mlmin.py:MLMin.run", "catlearn/regression/gaussian_process.py:GaussianProcess.optimize_hyperparameters", "catlearn/regression/gpfunctions/kernel_setup.py:list2kdict"]}
{"id": "C370", "title": "The surrogate of a path can always be trained", "statement": "For every set of evaluated structures and every path of 0.2 or longer, train_gp_model returns a model: its variance is 0.001 plus the variance of the energies, its length scale lies between 0.1 and the path length, its noises within 0.001-0.005 and 0.0005-0.002, the regularization is zero, the training set is the free coordinates of all structures, and the energy added to predictions is the highest one found. With coincident endpoints it is refused by an assertion.", "quantifier": "all structures, energies, forces, masks, path lengths and optimisers that respect their bounds", "why_tests_cant": "ranges over all training data and optimisers", "anchors": ["catlearn/optimize/mlneb.py:train_gp_model", "catlearn/regression/gaussian_process.py:GaussianProcess"]}
{"id": "C371", "title": "The surrogate of a path does not depend on the zero of energy", "statement": "Adding a constant to all energies gives the same surrogate model of ML-NEB, and adds the constant to the energies it predicts; forces and lengths are the same.", "quantifier": "all training data, constants and optimisers", "why_tests_cant": "ranges over all shifts and data", "anchors": ["catlearn/optimize/mlneb.py:train_gp_model"]}
{"id": "C372", "title": "The surface that images are relaxed on is smooth and the forces are its slopes", "statement": "The energy that the calculator of ML-NEB predicts is a differentiable function of all coordinates which depends on the free coordinates only. For every structure the calculator returns it, zero forces on constrained coordinates, and on each free coordinate minus the derivative of the predicted energy at a point within one finite step.", "quantifier": "all trained surrogates, structures and finite steps", "why_tests_cant": "ranges over all structures and all trained models", "anchors": ["catlearn/optimize/mlneb.py:ASECalc.calculate", "catlearn/optimize/mlneb.py:train_gp_model"]}
{"id": "C373", "title": "The surrogate of a path is flat far from the data", "statement": "Far from all evaluated structures, the calculator of ML-NEB predicts the highest energy found so far and no forces: for every tolerance there is a distance in a free coordinate beyond which energy and forces are within the tolerance.", "quantifier": "all training data, tolerances, finite steps and structures", "why_tests_cant": "a limit over an unbounded space of structures", "anchors": ["catlearn/optimize/mlneb.py:ASECalc.calculate", "catlearn/optimize/mlneb.py:train_gp_model"]}
{"id": "C374", "title": "The surrogate surface of the minimizer is smooth and flat far from the data", "statement": "After any number of passes of MLMin.run, the calculator predicts a differentiable energy of the free coordinates, forces that are its slopes within one finite step (zero on constrained coordinates), and far from all evaluated structures the highest energy found and no forces.", "quantifier": "all histories of training data, kernels, optimisers, structures and finite steps", "why_tests_cant": "ranges over all histories and an unbounded space of structures", "anchors": ["catlearn/optimize/mlmin.py:MLMin.run", "catlearn/optimize/mlneb.py:ASECalc.calculate"]}
{"id": "C375", "title": "A genetic search ends exactly when progress has stopped", "statement": "search(steps, repeat) makes a generation at a time and ends at the first one at which none of the last repeat+1 convergence checks, the check of the initial population included, brought a fitness above everything seen before; if there is none it makes all the steps.", "quantifier": "every fitness function, every sequence of offspring, every population and every setting of steps and repeat", "why_tests_cant": "Depends on counters over whole search histories with random offspring.", "anchors": ["catlearn/ga/algorithm.py: GeneticAlgorithm.search", "catlearn/ga/convergence.py: Convergence.no_progress"]}
{"id": "C376", "title": "The origin of the feature space does not matter to a Gaussian process", "statement": "With kernels of type constant, gaussian, laplacian and quadratic, on all or selected features and without scaling the data, adding the same vector to every training and every test row changes neither predictions nor uncertainties nor the log marginal likelihood.", "quantifier": "all training and test sets, shifts, lists of these kernels, widths, scalings, noises and both hyperparameter scales", "why_tests_cant": "An identity over all real inputs, training sizes and kernel combinations; floating point tests see only samples of it.", "anchors": ["catlearn/regression/gaussian_process.py:GaussianProcess.predict", "catlearn/regression/gpfunctions/covariance.py:get_covariance", "catlearn/regression/gpfunctions/kernels.py"]}
{"id": "C377", "title": "Rotating the feature space does not matter to isotropic kernels", "statement": "With constant kernels, gaussian kernels of one width and quadratic kernels of a single slope over all features, any map of the rows that keeps their Euclidean distances, also into a space with more columns, changes neither predictions nor uncertainties nor the log marginal likelihood.", "quantifier": "all distance-preserving maps, training and test sets, widths, scalings and noises", "why_tests_cant": "Quantifies over all isometries and data sets.", "anchors": ["catlearn/regression/gaussian_process.py:GaussianProcess.predict", "catlearn/regression/gpfunctions/kernels.py:gaussian_kernel"]}
{"id": "C378", "title": "The order of the feature columns does not matter to a Gaussian process", "statement": "If the columns of training and test data are permuted, the selected features of the kernels renamed and the per-feature widths permuted in the same way, predictions, uncertainties and log marginal likelihood stay as they were.", "quantifier": "all permutations, training and test sets, and lists of constant, gaussian, laplacian, linear and single-slope quadratic kernels", "why_tests_cant": "Quantifies over all permutations, kernel lists and data.", "anchors": ["catlearn/regression/gaussian_process.py:GaussianProcess.predict", "catlearn/regression/gpfunctions/covariance.py:get_covariance", "catlearn/regression/gpfunctions/kernel_setup.py:prepare_kernels"]}
{"id": "C379", "title": "Every covariance is the formula of its kernels", "statement": "An entry of the covariance matrix of training, or of test and training, points is obtained from the two points alone: each kernel gives its scaling times its formula on its selected features divided by its widths, and is added to, or multiplied into, the result of the kernels before it.", "quantifier": "all kernel lists without gradients, hyperparameters, both hyperparameter scales and all data", "why_tests_cant": "Relates vectorised matrix code to a pointwise formula for all sizes.", "anchors": ["catlearn/regression/gpfunctions/covariance.py:get_covariance", "catlearn/regression/gpfunctions/kernels.py"]}
{"id": "C380", "title": "More regularization means smaller coefficients and a worse fit", "statement": "For ridge regression on the same data, a larger regularization never gives a smaller training error, never larger coefficients (measured from the prior) and never a larger effective number of parameters, and the distance to the prior is at most the training error of the prior divided by the regularization.", "quantifier": "all features, targets, priors and pairs of regularizations", "why_tests_cant": "A monotonicity over all real data and regularizations.", "anchors": ["catlearn/regression/ridge_regression.py:RidgeRegression.RR"]}
{"id": "C381", "title": "The order of the data does not matter to ridge regression", "statement": "Permuting the rows of features and targets together gives the same coefficients.", "quantifier": "all data and permutations", "why_tests_cant": "Quantifies over all permutations and all real data.", "anchors": ["catlearn/regression/ridge_regression.py:RidgeRegression.RR"]}
{"id": "C382", "title": "A predicted point is related to the data as a trained one", "statement": "The covariance between a test point and the training data, with or without derivatives, is the corresponding part of the training covariance matrix of the point together with the data, with or without regularization.", "quantifier": "all kernel lists, hyperparameters, both hyperparameter scales, test and training points", "why_tests_cant": "Two separately written code paths (training and test blocks of every kernel) must agree for all sizes and values.", "anchors": ["catlearn/regression/gpfunctions/covariance.py:get_covariance", "catlearn/regression/gpfunctions/kernels.py"]}
{"id": "C383", "title": "Candidates are ranked against the best known target", "statement": "For objective 'max' ('min') rank computes each requested acquisition function relative to a known target that no other known target exceeds (undercuts), entry by entry, and refuses an empty list of targets; for a float objective 'optimistic' and 'pdf' are relative to that number.", "quantifier": "all target lists, predictions, uncertainties and kappa", "why_tests_cant": "Quantifies over all lists of targets and predictions.", "anchors": ["catlearn/active_learning/acquisition_functions.py:rank"]}
{"id": "C384", "title": "Acquisition values are probabilities and expectations", "statement": "For a candidate with positive uncertainty, PI is the probability, under the normal distribution with the prediction as mean and the uncertainty as standard deviation, of a value better than the reference, EI is the expected improvement over the reference, and the density used by 'pdf' is the density of that distribution at the reference; the probabilities for 'max' and 'min' add up to one and the two expected improvements differ by the predicted difference.", "quantifier": "all predictions, positive uncertainties and references", "why_tests_cant": "Relates closed formulas to improper integrals over the reals.", "anchors": ["catlearn/active_learning/acquisition_functions.py:EI, PI, probability_density"]}
{"id": "C385", "title": "An adsorbate that shares an element with the slab is identified by bonds", "statement": "If the formula of the species has distinct elements, some with exactly one atom in the structure and some with another number, the adsorbate consists of the atoms of the former elements and of all atoms of an element of the formula that are bonded to one of them, in increasing order; structures whose tags number the layers, by four different tags with one below 0 and one above 2, do not take this path.", "quantifier": "all structures, connectivity matrices and species without repeated elements", "why_tests_cant": "Depends on the elements and the bonds of every atom.", "anchors": ["catlearn/featurize/adsorbate_prep.py:detect_adsorbate, connectivity2ads_index"]}
{"id": "C386", "title": "A Gaussian process prediction is the best trade-off between fit and smoothness", "statement": "The predictions of a trained model are the values of a function built from covariances with the training points. Among all functions built from covariances with any finite set of points, none has a smaller sum of squared errors on the training data plus noise times roughness (squared norm); with nonzero noise, every function that is as good has the same values at all points.", "quantifier": "all training data, kernel lists, noise, and all competing functions with any number of centres", "why_tests_cant": "Compares the prediction with an infinite-dimensional class of functions.", "anchors": ["catlearn/regression/gaussian_process.py:GaussianProcess.predict", "catlearn/regression/gpfunctions/covariance.py:get_covariance"]}
{"id": "C387", "title": "Ridge regression is a Gaussian process with a linear kernel", "statement": "A ridge regression with regularization reg^2 / scaling and prior 0 and a Gaussian process with a linear kernel of that scaling and regularization reg, trained on the same data, make the same predictions.", "quantifier": "all feature matrices, targets, positive scalings, nonzero regularizations and test points", "why_tests_cant": "Relates two implementations, one by a decomposition of the Gram matrix, one by the inverse of the covariance matrix, for all data.", "anchors": ["catlearn/regression/ridge_regression.py:RidgeRegression.RR, predict", "catlearn/regression/gaussian_process.py:GaussianProcess.predict", "catlearn/regression/gpfunctions/kernels.py:linear_kernel"]}
{"id": "C388", "title": "A Gaussian process prediction is the best linear predictor and its uncertainty the expected error", "statement": "Each prediction is a weighted sum of the training targets. For values with the covariances of the kernels and targets with independent noise, the squared uncertainty is the expected squared error of that sum; no weights have a smaller expected squared error, and with nonzero noise no other weights have the same.", "quantifier": "all training data, kernel lists, noise, test points and competing weights", "why_tests_cant": "Compares the prediction with all weighted sums.", "anchors": ["catlearn/regression/gaussian_process.py:GaussianProcess.predict", "catlearn/regression/gpfunctions/uncertainty.py:get_uncertainty"]}
{"id": "C389", "title": "Predicted values added as data change no prediction", "statement": "If new points are added to the training data with the values predicted for them as targets, and the model is built again with the same kernels and noise, every prediction stays as it was.", "quantifier": "all training data, added points, kernel lists, noise and test points", "why_tests_cant": "Relates two trained models for every set of added points.", "anchors": ["catlearn/regression/gaussian_process.py:GaussianProcess.predict", "catlearn/regression/gpfunctions/covariance.py:get_covariance"]}
{"id": "C390", "title": "More noise means a worse fit, a smoother prediction and more uncertainty", "statement": "Of two models that differ only in the noise, the one with more noise has at least as large a sum of squared errors on its training data, which is at most the sum of the squared targets; its predicted function is at most as rough; and no prediction of it is more certain.", "quantifier": "all training data, kernel lists, pairs of noise values and test points", "why_tests_cant": "Compares models over a continuum of noise values.", "anchors": ["catlearn/regression/gaussian_process.py:GaussianProcess.predict", "catlearn/regression/gpfunctions/uncertainty.py:get_uncertainty"]}
{"id": "C391", "title": "Predictions at the training points change no more than the targets", "statement": "When the targets of a model are changed, the summed squared changes of the predictions at the training points and of the residuals there are together at most the summed squared changes of the targets.", "quantifier": "all training points, pairs of target lists, kernel lists and noise", "why_tests_cant": "Bounds the effect of every change of the targets.", "anchors": ["catlearn/regression/gaussian_process.py:GaussianProcess.predict"]}
{"id": "C392", "title": "The uncertainty bounds the error", "statement": "If the targets are the values of a function built from covariances of the kernels, the squared error of every prediction is at most the roughness (squared norm) of this function times the squared uncertainty. For other targets the noise times the squared difference between prediction and any such function is at most the squared uncertainty times the sum of its squared errors at the training points and the noise times its roughness.", "quantifier": "all training data, kernel lists, noise, test points and functions built from covariances", "why_tests_cant": "Bounds the error for every underlying function.", "anchors": ["catlearn/regression/gaussian_process.py:GaussianProcess.predict", "catlearn/regression/gpfunctions/uncertainty.py:get_uncertainty"]}
{"id": "C393", "title": "Similar points have similar predictions and uncertainties", "statement": "For two test points x and y with d = k(x,x) - 2k(x,y) + k(y,y), the uncertainties differ by at most the square root of d, and the noise times the squared difference of the predictions is at most d times the sum of the squared targets.", "quantifier": "all training data, kernel lists, noise and pairs of test points", "why_tests_cant": "Bounds differences over all pairs of points.", "anchors": ["catlearn/regression/gaussian_process.py:GaussianProcess.predict", "catlearn/regression/gpfunctions/uncertainty.py:get_uncertainty"]}
{"id": "C394", "title": "Repeating all data divides the noise", "statement": "Training on m copies of the data with m times the (squared) noise gives the same predictions and uncertainties as training on the data once.", "quantifier": "all training data, numbers of copies, kernel lists, noise and test points", "why_tests_cant": "Relates models of different sizes for every number of copies.", "anchors": ["catlearn/regression/gaussian_process.py:GaussianProcess.predict", "catlearn/regression/gpfunctions/covariance.py:get_covariance"]}
{"id": "C395", "title": "Site feature tables are made once", "statement": "Once site_features or normalized_site_features has been read, reading it again gives the same table and leaves the sites alone; the normalised table is the scaled table of the sites, and the unscaled table stays available.", "quantifier": "all site featurizers, scalers and histories of reads", "why_tests_cant": "Concerns repeated reads of every object.", "anchors": ["catlearn/featurize/site_stability.py:SiteFeaturizer.site_features", "catlearn/featurize/site_stability.py:SiteFeaturizer.normalized_site_features"]}
{"id": "C396", "title": "The logarithmic error compares ratios", "statement": "For targets above -1, the 'log' metric of get_error is the root mean square of ln((1 + max(prediction, 0)) / (1 + target)). For targets that are not negative it is at most the ordinary RMSE, and it is zero exactly when each prediction, cut off at zero, equals its target. Lists of different lengths are refused.", "quantifier": "all lists of predictions and targets", "why_tests_cant": "Quantifies over all numbers, lengths and zero sets of the error.", "anchors": ["catlearn/regression/cost_function.py:get_error"]}
{"id": "C397", "title": "Every sample counts in the logarithmic error", "statement": "The average logarithmic error of get_error takes every sample into account.", "quantifier": "all lists of predictions and targets", "why_tests_cant": "Silently dropped samples show only for targets outside the domain of the logarithm.", "anchors": ["catlearn/regression/cost_function.py:get_error"]}
{"id": "C398", "title": "Scaled targets have the promised statistics", "statement": "For targets that are not all equal, target_standardize returns values with mean zero and variance one, target_normalize values with mean zero and range one, and the returned mean and width restore the targets. target_center always gives mean zero. Equal targets give undefined values with the first two.", "quantifier": "all lists of targets", "why_tests_cant": "Holds for every list; undefined values arise only for equal targets.", "anchors": ["catlearn/preprocess/scaling.py:target_standardize", "catlearn/preprocess/scaling.py:target_normalize", "catlearn/preprocess/scaling.py:target_center"]}
{"id": "C399", "title": "Adding sites keeps those there are", "statement": "read_sites and traj_to_sites with extend put the new sites behind the old ones, which are unchanged, and without extend replace them. A site made from files is numbered by the sites before it and found at the removed atom, if no other atom is within the tolerance.", "quantifier": "all site featurizers, lists of sites and pairs of structures", "why_tests_cant": "Quantifies over every earlier list of sites.", "anchors": ["catlearn/featurize/site_stability.py:SiteFeaturizer.read_sites", "catlearn/featurize/site_stability.py:SiteFeaturizer.traj_to_sites"]}
{"id": "C400", "title": "What one more observation changes", "statement": "When an observation y at z, predicted as q with uncertainty v, is added to the training data, no uncertainty grows, and (v^2 + noise) times the squared change of any prediction equals the squared surprise (y - q)^2 times the loss of squared uncertainty there. At z the remaining surprise is the share noise / (v^2 + noise) of the first, and the squared uncertainty is that share of v^2.", "quantifier": "all training data, kernel lists, noise, new observations and test points", "why_tests_cant": "Relates two models for all data; tests compare a few numbers.", "anchors": ["catlearn/regression/gaussian_process.py:GaussianProcess.predict", "catlearn/regression/gpfunctions/uncertainty.py:get_uncertainty"]}
{"id": "C401", "title": "The log marginal likelihood is the sum of predicted log densities", "statement": "When a Gaussian process is trained on one more observation, its log marginal likelihood grows by the logarithm of the density of that observation in the normal distribution that the model trained before predicts there: the mean is the prediction, the variance the squared uncertainty plus the noise. With a single observation it is the log density of a normal distribution of mean zero whose variance is the covariance of the point with itself plus the noise. Along any history of models, each trained on the first observations in order, the likelihood of the last is that of the first plus the log densities of all later observations, each predicted before it was seen.", "quantifier": "all training data, kernel lists, noise and histories of observations", "why_tests_cant": "Relates any number of models for all data; tests compare a few numbers.", "anchors": ["catlearn/regression/gpfunctions/log_marginal_likelihood.py:log_marginal_likelihood", "catlearn/regression/gaussian_process.py:GaussianProcess.predict"]}
{"id": "C402", "title": "Processed training columns are standardized", "statement": "With finite targets, every column that general preprocessing returns for the training data comes from one column of the input: its values less their mean, divided by their standard deviation, so that its mean is 0 and its standard deviation 1. Finite test values of that column are shifted and divided by the same training mean and standard deviation.", "quantifier": "all training features, finite targets and optional test features", "why_tests_cant": "A statement about all matrices and all kept columns; tests check shapes.", "anchors": ["catlearn/estimator/general_preprocess.py:GeneralPrepreprocess.process"]}
{"id": "C403", "title": "A list is split into two in every way once", "statement": "Splitting a list of n different elements returns 2^(n-1) - 1 pairs of lists, no pair twice. The two lists of a pair are not empty and hold together every element once, each in the order of the list. Every way to separate the elements in two is one of the pairs, in one order and not in the other. Lists with less than two elements have no splits.", "quantifier": "all lists of different elements", "why_tests_cant": "Counts and lists all subsets for lists of any length; the function has no test.", "anchors": ["catlearn/preprocess/feature_engineering.py:_separate_list"]}
{"id": "C404", "title": "Leaving one observation out", "statement": "A Gaussian process trained on all observations determines what the same model trained without one of them says about it. With p and u the prediction and uncertainty of the full model at a training point with target y, the model without that observation predicts q with y - q = (y - p) / (1 - u^2 / noise), and its squared uncertainty is u^2 / (1 - u^2 / noise). The squared uncertainty at a training point is below the noise, and the error and the uncertainty there are at most those without the observation.", "quantifier": "all training data, kernel lists, positive noise, and every choice of the observation left out", "why_tests_cant": "Relates two trained models for all data and kernels; cross validation in the tests only runs examples.", "anchors": ["catlearn/regression/gaussian_process.py:GaussianProcess.predict", "catlearn/regression/gpfunctions/uncertainty.py:get_uncertainty"]}
{"id": "C405", "title": "Far from the data a Gaussian process returns to zero with full uncertainty", "statement": "For a Gaussian process with a gaussian kernel of one positive width per feature and no scaling of the data, and for every tolerance, there is a distance such that at every point that differs from each training point by this number of widths in some feature, the prediction is zero and the squared uncertainty is one, the value of the kernel, up to the tolerance.", "quantifier": "all training data, positive widths, noise, tolerances and test points", "why_tests_cant": "A limit over all test points; tests evaluate a few.", "anchors": ["catlearn/regression/gaussian_process.py:GaussianProcess.predict", "catlearn/regression/gpfunctions/kernels.py:gaussian_kernel"]}
{"id": "C406", "title": "Far from scaled data a Gaussian process returns to the mean of its targets", "statement": "For a Gaussian process with scale_data=True, a gaussian kernel of one positive width per feature and targets that are not all equal, and for every tolerance, there is a distance such that at every point that differs from each training point by this number of widths times the spread of the feature in some feature, the prediction is the mean of the targets and the squared uncertainty is their variance, up to the tolerance.", "quantifier": "all training data with different targets, positive widths, noise, tolerances and test points", "why_tests_cant": "A limit over all test points; tests evaluate a few.", "anchors": ["catlearn/regression/gaussian_process.py:GaussianProcess.predict", "catlearn/regression/gpfunctions/default_scale.py:ScaleData"]}
{"id": "C407", "title": "Repeated measurements count as their average", "statement": "A Gaussian process trained on the same points measured several times, with possibly different results, makes the same predictions with the same uncertainties as one trained once on the average result of each point with the noise (variance) divided by the number of measurements.", "quantifier": "all points, numbers of measurements, results, kernel lists and test points, without scaling of the data", "why_tests_cant": "Relates two models for all data and any number of measurements.", "anchors": ["catlearn/regression/gaussian_process.py:GaussianProcess.__init__", "catlearn/regression/gaussian_process.py:GaussianProcess.predict"]}
{"id": "C408", "title": "Predictions depend on the ratio of kernel and noise", "statement": "Multiplying all covariances and the noise (variance) of a Gaussian process by one positive number leaves every prediction unchanged and multiplies every uncertainty by the root of that number. For a gaussian kernel this means multiplying 'scaling' by the number and the regularization by its root.", "quantifier": "all training data, test points, positive factors, and kernel lists with proportional covariances, without scaling of the data", "why_tests_cant": "Relates two models for all data and factors.", "anchors": ["catlearn/regression/gaussian_process.py:GaussianProcess.predict", "catlearn/regression/gpfunctions/covariance.py:get_covariance"]}
{"id": "C409", "title": "Features no kernel uses do not matter to a Gaussian process", "statement": "When every kernel is a constant or lists its features, overwriting, adding or removing feature columns that no kernel lists, in the training and test data alike, changes no prediction, uncertainty or likelihood.", "quantifier": "all training and test data, lists of kernels with features, and changes of the other columns, without scaling of the data", "why_tests_cant": "Ranges over all data and all changes of the unused columns.", "anchors": ["catlearn/regression/gpfunctions/covariance.py:get_covariance", "catlearn/regression/gaussian_process.py:GaussianProcess.predict"]}
{"id": "C410", "title": "A constant kernel predicts the shrunken mean", "statement": "A Gaussian process whose only kernel is a constant c > 0, trained on n observations with noise (variance) v, predicts at every point the mean of the targets times n c / (n c + v), with squared uncertainty c v / (n c + v).", "quantifier": "all training data, constants, noise and test points, without scaling of the data", "why_tests_cant": "A closed form for all data and numbers of observations.", "anchors": ["catlearn/regression/gaussian_process.py:GaussianProcess.predict", "catlearn/regression/gpfunctions/kernels.py:constant_kernel"]}
{"id": "C411", "title": "Number of images from a distance", "statement": "When the number of images is given as a distance between images, a path of length d gets the whole number of such distances that fit in d, and three images whenever fewer than four fit.", "quantifier": "all distances of the end points and all positive distances between images", "why_tests_cant": "Rounding at every multiple of the step, over real numbers.", "anchors": ["catlearn/optimize/mlneb.py:MLNEB.__init__"]}
{"id": "C412", "title": "Structures of one size, end energies kept", "statement": "An MLNEB object is only made from structures with equal numbers of coordinates, and the energies of its end points are those of the given structures before and after every run.", "quantifier": "all end points, previous data, restarts, surrogates and runs of any length", "why_tests_cant": "Must hold for all structures and after any number of iterations.", "anchors": ["catlearn/optimize/mlneb.py:MLNEB.__init__", "catlearn/optimize/mlneb.py:MLNEB.run"]}
{"id": "C413", "title": "Default bounds of the noise, updates with features", "statement": "The regularization of a Gaussian process is optimised within the bounds the user gives; by default these are (1e-6, infinity), or (1e-3, 1e3) for a model with gradients. An update of the targets without features never succeeds.", "quantifier": "all data, kernels, gradients, bounds and models", "why_tests_cant": "Must hold for all kernels and data.", "anchors": ["catlearn/regression/gaussian_process.py:GaussianProcess.__init__", "catlearn/regression/gaussian_process.py:GaussianProcess.update_gp"]}
{"id": "C414", "title": "Product of gaussian kernels", "statement": "A gaussian kernel of one list of features multiplied by a gaussian kernel of another list is the gaussian kernel of both lists with the widths of both: the two models give the same predictions, uncertainties and likelihood.", "quantifier": "all training data, feature lists, widths, noise and test points, without scaling of the data", "why_tests_cant": "An identity between models over all data and feature lists.", "anchors": ["catlearn/regression/gpfunctions/covariance.py:get_covariance", "catlearn/regression/gpfunctions/kernels.py:gaussian_kernel", "catlearn/regression/gaussian_process.py:GaussianProcess.predict"]}
{"id": "C415", "title": "The order of added or multiplied kernels does not matter", "statement": "Kernels that are added can be listed in any order, and so can the kernels that a first kernel is multiplied by: the models give the same predictions, uncertainties and log marginal likelihood.", "quantifier": "all kernel lists and their permutations, training data, noise and test points, without scaling of the data", "why_tests_cant": "All permutations of lists of any length.", "anchors": ["catlearn/regression/gpfunctions/covariance.py:get_covariance", "catlearn/regression/gaussian_process.py:GaussianProcess.predict"]}
{"id": "C416", "title": "Scalings add and multiply", "statement": "Two gaussian kernels with the same widths, added, are one gaussian kernel with the sum of their scalings; a gaussian kernel multiplied by a constant kernel is the gaussian kernel with its scaling multiplied by the constant. The models give the same predictions, uncertainties and log marginal likelihood.", "quantifier": "all widths, scalings, constants, training data, noise and test points, without scaling of the data", "why_tests_cant": "Identities between models over all data.", "anchors": ["catlearn/regression/gpfunctions/covariance.py:get_covariance", "catlearn/regression/gpfunctions/kernels.py:constant_kernel", "catlearn/regression/gaussian_process.py:GaussianProcess.predict"]}
