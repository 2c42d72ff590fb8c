{"id": "C01", "title": "Options read back the last accepted write", "statement": "For any sequence of declare / set / update / clone calls on options dictionaries, reading an option returns exactly the value of the last accepted write (or the declared default), reading an undeclared or never-set option fails, and a rejected set changes nothing.", "quantifier": "every finite history of calls, every option name, value and declaration", "why_tests_cant": "a test fixes one history; the claim is about every interleaving of declarations, accepted and rejected writes", "anchors": ["smt/utils/options_dictionary.py:OptionsDictionary"]}
{"id": "C02", "title": "Stored option values satisfy their declaration", "statement": "After any history in which every declaration succeeded, every option that can be read holds either its undeclared (None) default or a value allowed by the declaration currently in force (listed value or allowed type); an update that fails half-way keeps the entries before the offending one and nothing after it.", "quantifier": "every history, every declaration", "why_tests_cant": "invariant over all reachable states", "anchors": ["smt/utils/options_dictionary.py:OptionsDictionary._assert_valid", "smt/utils/options_dictionary.py:OptionsDictionary.update"]}
{"id": "C03", "title": "Writes are accepted exactly by the declared rule", "statement": "A set of an option is accepted exactly when the option is declared and the value is one of the listed values or an instance of one of the listed types (either list alone suffices); in particular an option that lists values and also declares types=str (corr, poly, LHS criterion, EGO criterion) accepts every string, so the list is not enforced.", "quantifier": "every value, every declaration", "why_tests_cant": "the set of rejected strings is infinite", "anchors": ["smt/utils/options_dictionary.py:OptionsDictionary._assert_valid", "smt/surrogate_models/krg_based.py:KrgBased._initialize"]}
{"id": "C04", "title": "Cloned options are independent", "statement": "Operations on a cloned options dictionary never change what the original returns and vice versa, for every later history of calls on both.", "quantifier": "every history of calls on two dictionaries", "why_tests_cant": "aliasing bugs only show for particular interleavings", "anchors": ["smt/utils/options_dictionary.py:OptionsDictionary.clone"]}
{"id": "C05", "title": "Training data are what was last set, by value", "statement": "After any sequence of set/update calls on a surrogate and any in-place modification of the caller's arrays, the stored training inputs and outputs for a group name are the contents the arrays had at the last successful call for that group; other groups are untouched. The recorded sizes are those of the last successful set_training_values call whatever its group, so they can disagree with the stored data.", "quantifier": "every history of API calls and caller-side array writes", "why_tests_cant": "aliasing: depends on the interleaving of caller writes and API calls", "anchors": ["smt/surrogate_models/surrogate_model.py:SurrogateModel.set_training_values", "smt/surrogate_models/surrogate_model.py:SurrogateModel.update_training_values"]}
{"id": "C06", "title": "Updating training derivatives updates exactly that derivative", "statement": "After any history, updating the training derivative of input kx succeeds exactly when that derivative was set before and the entry before it (the values for kx = 0, the derivative of input kx-1 otherwise) is present with as many points as the new outputs; so it can refuse matching outputs and accept outputs of the wrong size. A successful update replaces only that derivative's outputs and keeps its points; a failed one changes nothing.", "quantifier": "every history of set/update calls and every kx", "why_tests_cant": "needs all combinations of which derivatives are present and their sizes", "anchors": ["smt/surrogate_models/surrogate_model.py:SurrogateModel.update_training_derivatives"]}
{"id": "C07", "title": "Prediction calls validate and do not touch the caller's array", "statement": "Every predict_* call raises on an unsupported prediction or a wrong input dimension without changing anything, otherwise calls the model-specific predictor once and returns its result as one row per point and one column per output (output and variance derivatives as returned), raising if the size does not fit. Value and variance predictions never change the caller's array, whatever the predictor does; the derivative predictions pass the caller's own array, which afterwards holds exactly what the predictor left in it. Value, derivative and variance-derivative predictions at zero points raise ZeroDivisionError.", "quantifier": "every surrogate capability set, every input array, every model-specific predictor", "why_tests_cant": "quantifies over all predictors, including ones that overwrite their input", "anchors": ["smt/surrogate_models/surrogate_model.py:SurrogateModel.predict_values", "smt/utils/checks.py"]}
{"id": "C08", "title": "Unfolded space has the advertised dimension", "statement": "For every list of variable types accepted by the consistency check, the relaxed bounds have exactly one row per continuous/integer variable and one [0,1] row per enum level, in order, and the advertised unfolded dimension is their number.", "quantifier": "every accepted list of types and limits", "why_tests_cant": "unbounded number of variables and enum levels", "anchors": ["smt/applications/mixed_integer.py:unfold_xlimits_with_continuous_limits", "smt/applications/mixed_integer.py:compute_unfolded_dimension", "smt/applications/mixed_integer.py:check_xspec_consistency"]}
{"id": "C09", "title": "Enum folding and unfolding are inverse", "statement": "Folding the unfolding of a point with valid enum indexes returns the point; unfolding the folding of a point whose enum blocks are one-hot returns it. Unfolding any other row truncates its enum entries towards zero and counts negative ones from the end, and raises IndexError exactly when some entry names no level.", "quantifier": "every list of types, every point", "why_tests_cant": "round trip over all sizes of enum blocks", "anchors": ["smt/applications/mixed_integer.py:fold_with_enum_index", "smt/applications/mixed_integer.py:unfold_with_enum_mask"]}
{"id": "C10", "title": "Discrete projection is idempotent and selects one level", "statement": "Projecting a relaxed point onto the discrete space is idempotent, rounds integers half to even, leaves continuous coordinates alone, sets enum blocks to 0/1 with at least one 1 at a maximal coordinate, and folding a projected point gives an index inside the enum. Exactly one level is set if and only if the maximal coordinate is unique (on ties several levels are set).", "quantifier": "every relaxed point and list of types", "why_tests_cant": "ties and rounding boundaries are measure-zero events a random test misses", "anchors": ["smt/applications/mixed_integer.py:cast_to_discrete_values"]}
{"id": "C11", "title": "Integer coordinates stay inside integer bounds", "statement": "Projecting a relaxed point inside the bounds keeps every coordinate inside its bounds when the integer bounds are integers; with non-integer bounds it can leave them.", "quantifier": "every bound and every point", "why_tests_cant": "boundary rounding", "anchors": ["smt/applications/mixed_integer.py:cast_to_discrete_values", "smt/applications/mixed_integer.py:MixedIntegerSamplingMethod"]}
{"id": "C12", "title": "Scaled samples stay inside the requested bounds", "statement": "Mapping unit-cube samples to xlimits sends every coordinate into [lower, upper], sends 0 to lower and 1 to upper, is increasing, and does not change the number or order of samples.", "quantifier": "every sample matrix in [0,1] and all bounds with lower <= upper", "why_tests_cant": "all reals", "anchors": ["smt/sampling_methods/sampling_method.py:SamplingMethod._scale_to_xlimits", "smt/sampling_methods/random.py:Random"]}
{"id": "C13", "title": "Full factorial returns the requested number of distinct points", "statement": "FullFactorial called with nt returns exactly nt pairwise different points of the unit cube scaled to the bounds, for every positive weights vector and bounds with lower < upper.", "quantifier": "every nt >= 1, dimension and weights", "why_tests_cant": "the level-count search is data dependent; distinctness is a claim about all pairs of rows", "anchors": ["smt/sampling_methods/full_factorial.py:FullFactorial._compute"]}
{"id": "C14", "title": "Full factorial level search terminates with balanced levels", "statement": "The level search terminates, ends with a product of levels >= nt, the last increment was necessary, and for equal weights any two dimensions' levels differ by at most one. The weights used are equal by default and otherwise the given ones divided by their sum, one given weight counting for every dimension and other numbers of weights being refused; integer weights make every call raise; a float array given as weights is overwritten by the first call, but no history of calls changes what a later call returns.", "quantifier": "every nt, dimension and weights", "why_tests_cant": "termination for all inputs", "anchors": ["smt/sampling_methods/full_factorial.py:FullFactorial._compute"]}
{"id": "C15", "title": "Latin hypercube optimisation preserves the Latin property", "statement": "For every outcome of the random generator, the optimised (ESE) plan has in every column the same multiset of values as the initial plan, the same shape, and the input plan is not modified.", "quantifier": "every initial plan and every stream of random numbers", "why_tests_cant": "quantifies over all random histories", "anchors": ["smt/sampling_methods/lhs.py:LHS._maximinESE", "smt/sampling_methods/lhs.py:LHS._PhiP_exchange"]}
{"id": "C16", "title": "Latin hypercube optimisation never returns a worse plan", "statement": "For every random stream the returned plan's criterion is at most the initial plan's, and the incrementally updated criterion equals the criterion recomputed from scratch after every exchange.", "quantifier": "every plan and random stream", "why_tests_cant": "incremental update correctness over all exchanges", "anchors": ["smt/sampling_methods/lhs.py:LHS._maximinESE", "smt/sampling_methods/lhs.py:LHS._PhiP_exchange", "smt/sampling_methods/lhs.py:LHS._PhiP"]}
{"id": "C17", "title": "Nested designs are nested", "statement": "NestedLHS returns one design per level, every point of a higher-fidelity design occurs in every lower-fidelity design, and (when the nearest points found are distinct) the sizes double from level to level.", "quantifier": "every number of levels and points and every random stream", "why_tests_cant": "the removed rows depend on distances; all configurations matter", "anchors": ["smt/applications/mfk.py:NestedLHS.__call__"]}
{"id": "C18", "title": "Tensor-product index maps are inverse bijections", "statement": "Expanding a flat index into per-dimension indexes and contracting it back is the identity below the product of the sizes, expanded components are within bounds, and contraction is injective on in-range multi-indexes.", "quantifier": "every number of dimensions and sizes", "why_tests_cant": "all sizes", "anchors": ["smt/src/rmts/utils.cpp"]}
{"id": "C19", "title": "B-spline bases form a partition of unity", "statement": "For every order, number of control points and parameter in the knot range, the computed basis values are non-negative and sum to one, and the computed derivative basis values sum to zero.", "quantifier": "every order k, number of control points n >= k and parameter t", "why_tests_cant": "recursion depth is the order; all real t", "anchors": ["smt/src/rmts/rmtb.cpp:compute_basis_0", "smt/src/rmts/rmtb.cpp:compute_basis_1", "smt/src/rmts/rmtb.cpp:compute_knot_vector_uniform"]}
{"id": "C20", "title": "RMTB reproduces constants", "statement": "If all control-point values are equal to c, the RMTB prediction is c at every point in the box and its derivatives are zero.", "quantifier": "every order, number of control points, dimension and point", "why_tests_cant": "tensor product over an unbounded number of dimensions", "anchors": ["smt/src/rmts/rmtb.cpp:RMTB::compute_jac"]}
{"id": "C21", "title": "RMTC elements agree on shared vertices", "statement": "The map from element corner indexes to unique vertex indexes is in range, two elements sharing a vertex get the same unique index, and distinct vertices get distinct ones.", "quantifier": "every number of dimensions and elements", "why_tests_cant": "all grids", "anchors": ["smt/src/rmts/rmtc.cpp:RMTC::compute_uniq2elem"]}
{"id": "C22", "title": "RMTC element search is correct", "statement": "The element index found for a point is in range and its interval contains the point's (clamped) coordinate.", "quantifier": "every grid and point", "why_tests_cant": "boundary coordinates", "anchors": ["smt/src/rmts/rmtc.cpp:RMTC::find_interval"]}
{"id": "C23", "title": "RMTS training gradient matches the training objective", "statement": "The gradient and Hessian used while training RMTB/RMTC are the exact derivative of the training objective, for every energy matrix, approximation matrices, weights and exponent.", "quantifier": "every solution vector and data", "why_tests_cant": "analytic identity over all vectors", "anchors": ["smt/surrogate_models/rmts.py:RMTS._opt_func", "smt/surrogate_models/rmts.py:RMTS._opt_grad", "smt/surrogate_models/rmts.py:RMTS._opt_hess"]}
{"id": "C24", "title": "RMTS derivative training weight is honoured", "statement": "What weight training derivatives get in the fit: with training values entered before derivatives every term, derivative or not, has weight 1 whatever grad_weight is (the documented scaling is computed and dropped); with derivatives entered first training stops with an error.", "quantifier": "every training set and grad_weight", "why_tests_cant": "the effect is masked on data fitted exactly", "anchors": ["smt/surrogate_models/rmts.py:RMTS._compute_approx_terms"]}
{"id": "C25", "title": "RMTS extrapolates linearly", "statement": "With extrapolation enabled predictions inside the box are those without it, and outside they are the first-order expansion at the closest point of the box.", "quantifier": "every point", "why_tests_cant": "all points outside the box", "anchors": ["smt/surrogate_models/rmts.py:RMTS._predict", "smt/src/rmts/rmts.cpp:RMTS::compute_ext_dist"]}
{"id": "C26", "title": "IDW interpolates and stays between the data", "statement": "IDW predictions equal the training output at every training input that is listed once (first copy of duplicates), and everywhere lie between the smallest and largest training output.", "quantifier": "every training set, power p and point", "why_tests_cant": "all training sets", "anchors": ["smt/src/idw/idw.cpp:IDW::compute_jac", "smt/surrogate_models/idw.py:IDW._predict_values"]}
{"id": "C27", "title": "IDW derivatives are derivatives of IDW predictions", "statement": "Away from training inputs the predicted derivative is the partial derivative of the predicted value; the output-derivative equals the weight of each training output and these sum to one.", "quantifier": "every training set, power and point", "why_tests_cant": "analytic identity", "anchors": ["smt/src/idw/idw.cpp:IDW::compute_jac_derivs", "smt/surrogate_models/idw.py"]}
{"id": "C28", "title": "RBF interpolates up to its regularisation", "statement": "If the linear system is solved, the RBF prediction at training input i is the training output minus reg times the i-th coefficient; with reg = 0 it is exact, for every polynomial degree.", "quantifier": "every training set, degree, d0, reg", "why_tests_cant": "identity over all training sets", "anchors": ["smt/surrogate_models/rbf.py:RBF", "smt/src/rbf/rbf.cpp"]}
{"id": "C29", "title": "RBF derivatives are derivatives of RBF predictions", "statement": "The predicted derivative is the partial derivative of the predicted value everywhere.", "quantifier": "every training set, coefficient vector and point", "why_tests_cant": "analytic identity", "anchors": ["smt/src/rbf/rbf.cpp:RBF::compute_jac_derivs", "smt/surrogate_models/rbf.py"]}
{"id": "C30", "title": "QP derivative and basis indexing", "statement": "The second-order polynomial model's basis enumerates 1, every x_i, every x_i^2 and every cross product exactly once, and the predicted derivative is the partial derivative of the predicted value for every coefficient vector.", "quantifier": "every dimension, coefficients, point", "why_tests_cant": "triangular index arithmetic for all dimensions", "anchors": ["smt/surrogate_models/qp.py:QP"]}
{"id": "C31", "title": "LS fits are least-squares optimal and reproduce linear data", "statement": "If the solver returns a normal-equation solution, no other linear model has a smaller training residual, affine data are reproduced exactly, and the predicted derivative is the partial derivative of the predicted value.", "quantifier": "every training set", "why_tests_cant": "optimality over all competitors", "anchors": ["smt/surrogate_models/ls.py:LS"]}
{"id": "C32", "title": "Correlation kernels are valid correlations", "statement": "For non-negative hyperparameters each correlation kernel gives values in (0,1], equals 1 at distance zero, is symmetric in the two points, is the documented product over dimensions, and every matrix of correlations is positive semidefinite (definite for positive hyperparameters and distinct points).", "quantifier": "every theta >= 0 and every distance", "why_tests_cant": "all reals", "anchors": ["smt/utils/kriging_utils.py:abs_exp", "smt/utils/kriging_utils.py:squar_exp", "smt/utils/kriging_utils.py:matern52", "smt/utils/kriging_utils.py:matern32", "smt/utils/kriging_utils.py:act_exp"]}
{"id": "C33", "title": "Kernel gradients are derivatives", "statement": "The hyperparameter gradient and Hessian and the input gradient returned by each kernel are the partial derivatives of the kernel value (except at the kink of abs_exp, where none exists).", "quantifier": "every theta, distance, component", "why_tests_cant": "analytic identity", "anchors": ["smt/utils/kriging_utils.py"]}
{"id": "C34", "title": "Pairwise distances enumerate every pair once", "statement": "The training distance table has n(n-1)/2 rows, contains each unordered pair of points exactly once with its componentwise difference, so the correlation matrix built from it is symmetric with unit(+nugget) diagonal and is fully assigned.", "quantifier": "every number of points", "why_tests_cant": "index arithmetic for all n", "anchors": ["smt/utils/kriging_utils.py:cross_distances", "smt/surrogate_models/krg_based.py:KrgBased._reduced_likelihood_function"]}
{"id": "C35", "title": "Kriging interpolates up to nugget", "statement": "The kriging mean at training input i equals the training output minus y_std*(nugget+noise)*gamma_i, hence is exact without nugget and noise, for every regression basis and correlation kernel.", "quantifier": "every training set whose correlation matrix factorises", "why_tests_cant": "identity over all training sets and theta", "anchors": ["smt/surrogate_models/krg_based.py:KrgBased._predict_values", "smt/surrogate_models/krg_based.py:KrgBased._reduced_likelihood_function"]}
{"id": "C36", "title": "Kriging derivatives are derivatives of kriging predictions", "statement": "The predicted derivative is the partial derivative of the predicted mean for squared-exponential correlation with constant and linear trends.", "quantifier": "every training set, theta, point", "why_tests_cant": "analytic identity", "anchors": ["smt/surrogate_models/krg_based.py:KrgBased._predict_derivatives"]}
{"id": "C37", "title": "Kriging variance is the universal-kriging variance", "statement": "The predicted mean is the best linear unbiased predictor for every trend; the predicted variance is non-negative, vanishes at training points without nugget and noise, and for a constant trend equals the mean squared error of the predictor. For linear and quadratic trends it differs from that error by an exactly characterised amount (a triangular solve uses the wrong triangle), which is not zero in general.", "quantifier": "every training set, trend and point", "why_tests_cant": "wrong triangle only matters with two or more trend functions", "anchors": ["smt/surrogate_models/krg_based.py:KrgBased._predict_variances"]}
{"id": "C38", "title": "Kriging predictions are equivariant under affine rescaling of data", "statement": "With no input constant over the training set, training on shifted and positively scaled inputs and outputs gives the same likelihood for every theta, and predictions and variances that are the correspondingly shifted and scaled ones (fixed hyperparameters). An input that is constant over the training set is not rescaled, and then the claim fails.", "quantifier": "every training set and affine map with positive scale", "why_tests_cant": "all affine maps", "anchors": ["smt/utils/kriging_utils.py:standardization", "smt/surrogate_models/krg_based.py:KrgBased._new_train"]}
{"id": "C39", "title": "Hyperparameter search terminates and returns the best start", "statement": "Whatever the inner optimiser returns or raises, the multi-start retry loop performs a bounded number of inner optimisations and (at most 20 for a fresh model) and the returned value, parameters and hyperparameters belong together; if the optimiser returns the best point it evaluated, no evaluation of a completed run has a larger finite likelihood than the returned one. (Without that assumption a better evaluated point can be dropped, and training can even end without parameters.)", "quantifier": "every behaviour of the inner optimiser", "why_tests_cant": "adversarial optimiser behaviours", "anchors": ["smt/surrogate_models/krg_based.py:KrgBased._optimize_hyperparam"]}
{"id": "C40", "title": "Retraining: when it is the same as training a fresh model", "statement": "Training Kriging or KPLS again on data of the same shape uses the options a fresh model would use. Training changes the options, though: with theta0 = [a] a Kriging model trained in 2 or more dimensions can be retrained only in the same dimension (a fresh model accepts any), RBF keeps the d0 vector of the first dimension, and KPLSK replaces n_comp by the input dimension, so retraining it is not training a fresh model.", "quantifier": "every pair of training shapes and option values", "why_tests_cant": "needs every pair of trainings with different dimensions", "anchors": ["smt/surrogate_models/krg_based.py:KrgBased._check_param", "smt/surrogate_models/rbf.py:RBF._initialize", "smt/surrogate_models/krg_based.py:KrgBased._optimize_hyperparam"]}
{"id": "C41", "title": "EGO's data set is consistent with the objective", "statement": "For a deterministic objective of continuous variables, when optimize returns, every stored output is the objective value at the stored input, the stored set extends the initial design by at most n_iter*n_parallel points (exactly, if no internal optimisation fails), and the returned optimum is a stored point with minimal stored output. With user-given outputs or mixed-integer variables every added point is still evaluated (on its folded version) and the optimum is minimal among the stored outputs.", "quantifier": "every surrogate, acquisition behaviour (including failures), n_iter, n_parallel", "why_tests_cant": "quantifies over all acquisition-optimiser outcomes", "anchors": ["smt/applications/ego.py:EGO.optimize"]}
{"id": "C42", "title": "EGO's acquisition retry reports success when it succeeds", "statement": "The acquisition search returns the best run of the first attempt that has a successful run, provided this is attempt number less than n_max_optim; otherwise it reports failure. (So a success at the last allowed attempt is reported as failure, in particular always for n_max_optim = 1.)", "quantifier": "every success/failure pattern", "why_tests_cant": "all patterns", "anchors": ["smt/applications/ego.py:EGO._find_best_point"]}
{"id": "C43", "title": "Expected improvement is non-negative and vanishes with certainty", "statement": "The EI acquisition is non-negative, zero where the predicted variance is zero, non-decreasing in the best value and in the variance and non-increasing in the predicted mean; its derivative in the best value is the probability of improvement and it vanishes as the best value goes to minus infinity; the tunneling penalty keeps it between 0 and EI. The confidence-bound acquisition is at most the prediction, equal to it only without uncertainty, and the normal outcome falls below it with probability Phi(-3).", "quantifier": "every mean, variance and best value", "why_tests_cant": "all reals", "anchors": ["smt/applications/ego.py:EGO.EI"]}
{"id": "C44", "title": "Which rows EGO passes to the objective in mixed-integer problems", "statement": "In a mixed-integer optimisation the objective receives, for every added point, the folded stored point: category indices for enumerations, but integer variables unrounded as proposed by the acquisition optimiser; the initial design (when outputs are not given) is passed in unfolded form, with enumeration masks. The returned optimum is a folded, unrounded stored point. (So the documented folded integral representation is violated.)", "quantifier": "every design and type list", "why_tests_cant": "the objective rarely fails on the wrong representation", "anchors": ["smt/applications/ego.py:EGO._setup_optimizer", "smt/applications/ego.py:EGO.optimize"]}
{"id": "C45", "title": "MOE test/training split is a partition", "statement": "Splitting values by a quantile q >= 1 for validation yields two parts that together contain every value exactly once, the values at positions divisible by q in the test part (ceil(n/q) of them) and the others in the other part; distributing values to clusters succeeds exactly when there is one label below n_clusters per value, and each cluster then contains exactly the values with its label.", "quantifier": "every data set size, quantile and clustering", "why_tests_cant": "all sizes", "anchors": ["smt/applications/moe.py:MOE._extract_part", "smt/applications/moe.py:MOE._cluster_values"]}
{"id": "C46", "title": "MOE smooth prediction is a convex combination of experts", "statement": "Where the weighted cluster densities are not all zero: membership probabilities are in [0,1] and sum to 1; the smooth prediction is the density-weighted mean of the expert predictions, hence lies between the smallest and largest of them and equals their common value if they agree; the smooth variance is between 0 and the largest expert variance; the hard prediction is that of the first most probable expert. With one cluster all three are the prediction of the only expert. With two or more clusters where all densities underflow to zero, the smooth prediction and variance are 0 whatever the experts predict.", "quantifier": "every set of experts, densities and points", "why_tests_cant": "all numbers of clusters", "anchors": ["smt/applications/moe.py:MOE._predict_smooth_output", "smt/applications/moe.py:MOE._predict_hard_output", "smt/applications/moe.py:MOE._proba_cluster"]}
{"id": "C47", "title": "MOE picks the expert with the smallest validation score", "statement": "The expert kept for a cluster is the first enabled one with minimal score, where the score is the spectral norm of the n x n matrix of differences expected_j - predicted_i (not the norm of the error vector). With one validation point this is the expert with minimal absolute error. A perfect expert always has minimal score, but so has every expert with the right mean and no more spread than the data, so with two or more validation points the kept expert need not have minimal error, even when another one is perfect.", "quantifier": "every set of experts and validation data", "why_tests_cant": "needs adversarial predictions", "anchors": ["smt/applications/moe.py:MOE._find_best_model"]}
{"id": "C48", "title": "VFM reproduces high-fidelity data through an interpolating bridge", "statement": "If the bridge surrogate interpolates its training data, VFM predictions at the high-fidelity training inputs equal the high-fidelity outputs for additive bridges and, where the low-fidelity prediction is not zero, for multiplicative bridges; likewise for derivatives when the bridge is trained with derivatives and matches them. Predicted derivatives are the partial derivatives of predicted values when those of both surrogates are. The first prediction trains the model; later ones neither retrain nor change anything.", "quantifier": "every low-fidelity model, training set and bridge", "why_tests_cant": "all surrogates", "anchors": ["smt/applications/vfm.py:VFM"]}
{"id": "C49", "title": "Effect of VFM on the option dictionaries it is given", "statement": "Training VFM removes the entry deriv from the user-supplied option dictionaries and changes nothing else, so they are left unchanged exactly when they had no such entry; a second application built from the same dictionaries then trains both models without derivatives, and one dictionary supplied for both models makes training fail with KeyError.", "quantifier": "every dictionary", "why_tests_cant": "needs reuse of the same dictionary", "anchors": ["smt/applications/vfm.py:VFM._apply"]}
{"id": "C50", "title": "Multi-fidelity kriging recursion", "statement": "For any number of levels, each level of MFK is the best linear unbiased predictor of its own data with the prediction of the level below scaled into the trend, so every level reproduces its own outputs without nugget and noise; variances are non-negative and the variance of a level is the second moment of the scale factor times the variance of the level below plus the process variance times the prediction error. From the third level on that error is computed as if the level below were predicted at its overall mean, so there it is positive even at training points shared by all levels. MFKPLS and MFKPLSK subtract half of the known-trend error.", "quantifier": "every number of levels and training sets", "why_tests_cant": "unbounded recursion over levels", "anchors": ["smt/applications/mfk.py:MFK._predict_values", "smt/applications/mfk.py:MFK.predict_variances_all_levels"]}
{"id": "C51", "title": "MFK rejects inconsistent level dimensions", "statement": "Training data are accepted exactly when there are as many inputs as outputs, each level has as many output as input rows, and every level from the third on has as many columns as the one before; the first two levels may have different numbers of columns.", "quantifier": "every list of level data", "why_tests_cant": "all mismatching positions", "anchors": ["smt/applications/mfk.py:MFK._check_list_structure"]}
{"id": "C52", "title": "Cached results are transparent", "statement": "After any history of trainings (including failing ones), truncations and deletions of cache files, a training with caching ends with exactly the stored attributes that the training computation would produce for these options and data, and fails exactly when that computation (or pickling) fails, in which case nothing is stored and the object is unchanged. A model that stores no attribute always recomputes; otherwise a second identical training with a directory does not recompute. Without a directory nothing is written. Exceptions found: pickling failures leave the model without a printer; without a directory, files in a directory literally named None are read; an RBF served from the cache lacks the matrix that predict_output_derivatives needs.", "quantifier": "every history of calls, failures and cache contents", "why_tests_cant": "crash points and histories", "anchors": ["smt/utils/caching.py:cached_operation"]}
{"id": "C53", "title": "Timing/printing context is balanced", "statement": "The indentation depth of the printer after a program grows by exactly the number of timed contexts left by an exception; it is restored when no exception is caught inside and the program ends normally. (So after enough caught failures a printer indents past its limit and prints nothing.) One duration is recorded per completed keyed context, nonnegative when the clock is monotone, and an inactive printer prints nothing.", "quantifier": "every nesting and failure point", "why_tests_cant": "crash points", "anchors": ["smt/utils/printer.py:Printer._timed_context"]}
{"id": "C54", "title": "Line search returns sufficient decrease", "statement": "If the backtracking line search returns, its step satisfies the sufficient-decrease condition, and for a descent direction of a differentiable function it does return; the bracketing line searches (midpoint, quadratic, cubic) return only strong-Wolfe points, if they return a point. The midpoint search ends on every continuously differentiable objective and descent direction, and returns nothing exactly when all 20 growing trial steps decrease enough, do not rise and are still too steep; the quadratic search returns the minimiser (or one of the trial steps, or nothing if all are too short) on objectives that are convex quadratics along the direction. A trial step of the cubic search lies in the bracket, is the best stationary point there of the cubic through both values and slopes and lowers the objective below the higher end; the search raises exactly when the ends coincide, the cubic term vanishes (so whenever a quadratic has to be interpolated) or no such stationary point lowers the objective.", "quantifier": "every function, direction and constants", "why_tests_cant": "termination for all smooth functions", "anchors": ["smt/utils/line_search.py:BacktrackingLineSearch"]}
{"id": "C55", "title": "Stationary iterations fix exactly the solutions", "statement": "With non-zero diagonal and damping, a vector is unchanged by a Jacobi / Gauss-Seidel iteration exactly when it solves the linear system, and then by any number of iterations. For diagonally dominant systems and damping in (0,1] both methods shrink the error geometrically with the stated rate. For symmetric positive definite systems Gauss-Seidel with damping in (0,2) converges to the solution from every start and its energy decreases at every iteration that does not start at the solution; Jacobi may diverge there.", "quantifier": "every matrix and right-hand side", "why_tests_cant": "all sizes", "anchors": ["smt/utils/linear_solvers.py:StationarySolver"]}
{"id": "C56", "title": "RMS error helper returns the relative error", "statement": "compute_rms_error: with validation inputs and outputs both given it returns ||prediction - truth|| / ||truth|| for a single output, for values and for any derivative, and raises ValueError when their lengths differ; with several outputs the one column is compared with every output; with nothing given and no derivative index it returns the relative training error over all outputs, which is 0 exactly when all training values are reproduced; a derivative index without validation points always fails, and giving exactly one of inputs and outputs returns nothing; all-zero data give a non-number.", "quantifier": "every surrogate, problem and argument combination", "why_tests_cant": "all argument combinations", "anchors": ["smt/utils/misc.py:compute_rms_error"]}
{"id": "C57", "title": "Silence restores the previous output streams", "statement": "Leaving a silenced block always reinstates the interpreter's original standard output, so the stream active on entry is restored exactly when it was the original one. A single block around ordinary code prints nothing, closes only its own null stream and passes exceptions on. (Nested blocks: the rest of the outer block prints, and leaving it closes the real standard output; redirections are lost; the file-descriptor variant silences nothing under Python 3.)", "quantifier": "every nesting of silenced blocks and redirections", "why_tests_cant": "nesting histories", "anchors": ["smt/utils/silence.py:Silence"]}
{"id": "C58", "title": "Benchmark problem derivatives are derivatives", "statement": "For Sphere, Rosenbrock, Branin, TensorProduct, LpNorm of order 1 and 2, RobotArm and CantileverBeam, the value without kx is the textbook function and the value returned for kx is its partial derivative, in every dimension, at every point where the function is differentiable by its formula (coordinate not 0 for the 1-norm, not the origin for the 2-norm, tip not at the base for the arm, non-zero widths and heights for the beam). LpNorm of order >= 3 never returns a derivative. Calls with the wrong number of columns or a negative or non-integer kx are rejected; a kx past the last variable raises for Sphere, Rosenbrock and Branin but TensorProduct silently returns the function value and RobotArm a number.", "quantifier": "every dimension, point and kx", "why_tests_cant": "finite differences only sample points", "anchors": ["smt/problems"]}
{"id": "C59", "title": "Reduced problems are sections of the full problem", "statement": "A reduced problem is accepted exactly for a number of dimensions not above that of the full problem or a non-empty list of indices in [-n, n). For distinct non-negative indices it evaluates the full problem at the point whose selected coordinates are the arguments and whose other coordinates are the w-interpolated bounds, its bounds are the selected bounds and its derivative is correct wherever that of the full problem is; likewise the n-dimensional Rosenbrock, robot arm and cantilever problems. With repeated or negative indices a wrong derivative can be returned.", "quantifier": "every problem, distinct selection, w, point", "why_tests_cant": "all selections", "anchors": ["smt/problems/reduced_problem.py:ReducedProblem"]}
{"id": "C60", "title": "Mini-batches partition the training set", "statement": "For every batch size of at least 1 and every permutation drawn, the mini-batches together contain every training example exactly once with its matching output and derivatives; all but the last have the requested size (or all the examples if it is larger) and the last has the remainder. A size of 0 fails (the training replaces it by the number of examples); a negative size yields no batch at all if it divides the number of examples and fails otherwise. With a seed every epoch uses the same batches in the same order.", "quantifier": "every number of examples, batch size and permutation", "why_tests_cant": "all remainders", "anchors": ["smt/utils/neural_net/data.py:random_mini_batches"]}
{"id": "C61", "title": "Network Jacobian is the derivative of the network", "statement": "The output of the network is the composition of its layers, and its Jacobian is the derivative of that output with respect to its inputs, for every depth and width. With the normalisation of training, the predicted derivatives are the partial derivatives of the predicted values for a model of one output queried at any number of points other than one, and for a model of one input and one output or queried at a single point.", "quantifier": "every architecture, parameters and point", "why_tests_cant": "unbounded depth", "anchors": ["smt/utils/neural_net/fwd_prop.py:L_grads_forward", "smt/utils/neural_net/model.py:Model.gradient"]}
{"id": "C62", "title": "Back-propagated gradient is the gradient of the cost", "statement": "The training cost is the regularised least-squares objective in values and derivatives for lambd >= 0, 0 <= gamma <= 1 and any batch of other than one example, and the back-propagated gradient is the gradient of that objective with respect to every weight and bias, at any depth, when gamma is 0 or 1, and with respect to the last layer for every gamma. For 0 < gamma < 1 the gradient of earlier layers is in general wrong; a negative lambd is ignored by the cost but not by the gradient; without derivative data the cost is the value part of the objective and there is no gradient.", "quantifier": "every architecture, data, lambd and gamma", "why_tests_cant": "unbounded depth; default gamma masks the error", "anchors": ["smt/utils/neural_net/bwd_prop.py:L_model_backward", "smt/utils/neural_net/loss.py:lse"]}
{"id": "C63", "title": "Activation derivatives are derivatives", "statement": "The first and second derivatives of the activation functions used in training are the derivatives of the functions used in prediction, at every real number.", "quantifier": "every real input", "why_tests_cant": "all reals", "anchors": ["smt/utils/neural_net/activation.py"]}
{"id": "C64", "title": "Optimiser line search ends and accepts only decrease or a tiny step", "statement": "From every state, for every cost and gradient, the training line search terminates when its first factor is below 1 (within 6 tries for the default factor and learning rates up to 4294), and the accepted step either decreased the cost or had an effective rate below 1e-6; with a factor of 1 or more, gradient descent that does not decrease the cost never ends. The optimisation follows the specified sequence of Adam or gradient-descent steps, each the first acceptable one, and returns the last design, which may be worse than the start.", "quantifier": "every cost function and positive learning rate", "why_tests_cant": "termination for all costs", "anchors": ["smt/utils/neural_net/optimizer.py:Optimizer.backtracking_line_search"]}
{"id": "C65", "title": "GENN predicts derivatives at any number of points", "statement": "Derivative prediction at m points of a model with nx inputs and ny outputs fails exactly when nx <> ny and either m = 1 and nx >= 2, or m <> 1 and ny >= 2; in particular a single query point with two or more inputs and one output always fails. With nx = ny >= 2 a result is returned whose scale factors are wrong.", "quantifier": "every number of points and inputs", "why_tests_cant": "shape bug only at n=1", "anchors": ["smt/utils/neural_net/model.py:Model.gradient", "smt/surrogate_models/genn.py:GENN._predict_derivatives"]}
{"id": "C66", "title": "Goodness-of-fit check does not alter the model's training data", "statement": "A goodness_of_fit call replaces the stored training data by the validation data, so that training again trains on these; it never changes the network: predictions are unchanged if the validation points have as many columns as the training points, and are refused afterwards otherwise.", "quantifier": "every training and validation set", "why_tests_cant": "aliasing", "anchors": ["smt/surrogate_models/genn.py:GENN.goodness_of_fit"]}
{"id": "C67", "title": "Mixed-integer samples are legal designs", "statement": "Whatever sampler is wrapped, as long as it stays in its bounds, a mixed-integer sampling returns the requested number of points, each coordinate legal for its variable (inside the bounds, integers integral, enum indexes inside the enum), and each row decodes to user values among the declared levels.", "quantifier": "every list of types and limits (integer bounds for integer variables), every wrapped sampler, every number of points", "why_tests_cant": "ranges over all samplers and all relaxed points, including rounding boundaries and ties", "anchors": ["smt/applications/mixed_integer.py:MixedIntegerSamplingMethod", "smt/applications/mixed_integer.py:cast_to_mixed_integer"]}
{"id": "C68", "title": "Mixed-integer surrogate is asked where it was trained", "statement": "Predicting at the training points queries the wrapped surrogate at exactly the rows it was trained on if and only if the integer coordinates of the training points are integers (training rows are not rounded, prediction rows are), so interpolation is preserved exactly in that case.", "quantifier": "every list of types, every training set with valid enum indexes", "why_tests_cant": "depends on every coordinate of every training point", "anchors": ["smt/applications/mixed_integer.py:MixedIntegerSurrogateModel"]}
{"id": "C69", "title": "RMTB derivative predictions are derivatives of predictions", "statement": "The predicted derivative of an RMTB model along a coordinate is the partial derivative of the predicted value, for every query strictly inside the box (away from the knots) and, with extrapolation on, for every query outside; without extrapolation the value is flat outside but the derivative prediction is not zero.", "quantifier": "every order and number of control points per dimension, every coefficient vector, every query point, every coordinate", "why_tests_cant": "a statement about limits over all real inputs and all tensor-product sizes", "anchors": ["smt/surrogate_models/rmts.py:RMTS._predict_derivatives", "smt/surrogate_models/rmtb.py:RMTB._compute_jac_raw", "smt/src/rmts/rmtb.cpp:RMTB::compute_jac"]}
{"id": "C70", "title": "RMTC prediction is the tensor cubic Hermite interpolant", "statement": "The predicted value of an RMTC model is the tensor-product cubic Hermite interpolant of the degrees of freedom of the element containing the query; at a grid vertex it equals that vertex's value degree of freedom; the nodal matrix the code inverts is invertible in every dimension.", "quantifier": "every number of dimensions and elements, every vector of degrees of freedom, every query point", "why_tests_cant": "ranges over all element grids and all real inputs", "anchors": ["smt/surrogate_models/rmtc.py:RMTC._compute_dof2coeff", "smt/src/rmts/rmtc.cpp:RMTC::compute_jac", "smt/src/rmts/rmtc.cpp:RMTC::compute_coeff2nodal"]}
{"id": "C71", "title": "RMTC derivative predictions are derivatives of predictions", "statement": "The predicted derivative of an RMTC model along a coordinate is the partial derivative of the predicted value at every point strictly inside the domain, element boundaries included, and, with extrapolation on, at every point outside.", "quantifier": "every element grid, every vector of degrees of freedom, every query point, every coordinate", "why_tests_cant": "a statement about limits over all real inputs; continuity across element boundaries cannot be sampled", "anchors": ["smt/surrogate_models/rmts.py:RMTS._predict_derivatives", "smt/src/rmts/rmtc.cpp:RMTC::compute_jac"]}
{"id": "C72", "title": "RMTS training minimises its objective", "statement": "For every even approximation order a stationary solution of the RMTS training objective is its strict global minimum; Newton iterations with the default line search terminate and never increase the objective; with order 2 training ends exactly at the minimum, whatever the iteration limits.", "quantifier": "every training set, energy matrix with positive regularisation, weights, tolerance and iteration limit", "why_tests_cant": "global optimality over all solution vectors and termination cannot be sampled", "anchors": ["smt/surrogate_models/rmts.py:RMTS._run_newton_solver", "smt/surrogate_models/rmts.py:RMTS._solve", "smt/utils/line_search.py:BacktrackingLineSearch"]}
{"id": "C73", "title": "RMTS trains on any outputs", "statement": "Training an RMTS model raises an AttributeError exactly when the zero solution already meets the solver tolerance (so always for outputs that are identically zero); otherwise it stores a solution.", "quantifier": "every training set, options and linear solver", "why_tests_cant": "depends on the whole training history", "anchors": ["smt/surrogate_models/rmts.py:RMTS._train", "smt/surrogate_models/rmts.py:RMTS._run_newton_solver"]}
{"id": "C74", "title": "Cached RMTS energy terms do not depend on the domain", "statement": "The energy matrices that RMTB/RMTC cache under a key that omits the domain limits are the same matrices for every domain, so reusing them is sound.", "quantifier": "every pair of domains, every grid, order and number of control points", "why_tests_cant": "ranges over all pairs of domains", "anchors": ["smt/surrogate_models/rmts.py:RMTS._compute_energy_terms", "smt/src/rmts/rmts.cpp:RMTS::compute_quadrature_points"]}
{"id": "C75", "title": "RMTS output derivatives are sensitivities to the training outputs", "statement": "With approximation order 2, the predicted derivatives with respect to training outputs are exact: retraining with changed outputs moves every prediction by the sum of those derivatives times the changes.", "quantifier": "every training set, change of outputs and query point", "why_tests_cant": "compares all pairs of trainings", "anchors": ["smt/surrogate_models/rmts.py:RMTS._predict_output_derivatives", "smt/surrogate_models/rmts.py:RMTS._opt_dgrad_dyt"]}
{"id": "C76", "title": "IDW and RBF output derivatives are exact sensitivities", "statement": "For IDW and RBF models the predicted derivatives with respect to the training outputs are exact: retraining with changed outputs moves every prediction by the sum of those derivatives times the changes.", "quantifier": "every training set, pair of output vectors and query point", "why_tests_cant": "compares all pairs of trainings", "anchors": ["smt/surrogate_models/idw.py:IDW._predict_output_derivatives", "smt/surrogate_models/rbf.py:RBF._predict_output_derivatives"]}
{"id": "C77", "title": "Blockwise evaluation covers every row exactly once", "statement": "Distances and correlations are computed in blocks of rows; for every number of rows and block size the loop ends and every row is transformed exactly once.", "quantifier": "every number of rows and block size", "why_tests_cant": "block boundaries need more than 10000 rows to be exercised", "anchors": ["smt/utils/kriging_utils.py:abs_exp", "smt/utils/kriging_utils.py:componentwise_distance"]}
{"id": "C78", "title": "Kriging estimates trend and process variance by generalised least squares", "statement": "The trend coefficients of a trained kriging model minimise the residual in the norm of the inverse correlation matrix, and the process variance is that minimum divided by the number of training points, in squared output units.", "quantifier": "every training set, trend, kernel and theta for which training succeeds", "why_tests_cant": "minimality over all trend coefficients", "anchors": ["smt/surrogate_models/krg_based.py:KrgBased._reduced_likelihood_function"]}
{"id": "C79", "title": "Kriging variance derivatives are derivatives of the kriging variance", "statement": "For constant and linear trends the predicted variance derivatives at a point are the partial derivatives of the kriging variance wherever the kernel is differentiable; for a constant trend these are the derivatives of the predicted variance; a quadratic trend is refused.", "quantifier": "every training set, kernel with non-negative hyperparameters, query point and coordinate", "why_tests_cant": "analytic identity over all training sets and points", "anchors": ["smt/surrogate_models/krg_based.py:KrgBased._predict_variance_derivatives"]}
{"id": "C80", "title": "Kriging cannot be trained when no hyperparameter gives a finite likelihood", "statement": "If every evaluation of the likelihood is infinite the hyperparameter search raises an exception after a bounded number of runs; in particular training on constant outputs always raises.", "quantifier": "every optimiser behaviour, training set with constant outputs, trend and kernel", "why_tests_cant": "adversarial optimiser behaviours and all training inputs", "anchors": ["smt/surrogate_models/krg_based.py:KrgBased._optimize_hyperparam"]}
{"id": "C81", "title": "The hyperparameter search starts inside the bounds", "statement": "Each attempt starts from hyperparameters within theta_bounds: entries of theta0 within the bounds are kept and the others replaced by a random value within the bounds. With eval_noise the starting vector grows at each retry, so only the first attempt starts from a vector of the right length.", "quantifier": "every theta0, bounds and random draw, every number of retries", "why_tests_cant": "random draws", "anchors": ["smt/surrogate_models/krg_based.py:KrgBased._optimize_hyperparam"]}
{"id": "C82", "title": "MOE chooses the smoothing factor with the smallest validation error", "statement": "The heaviside factor is 1 with a single cluster or when all 21 candidates have relative error below 1e-6; otherwise it is the first of the 21 equally spaced candidates 0.1, 0.2, ..., 2.1 with the smallest error.", "quantifier": "every number of clusters and vector of errors", "why_tests_cant": "all error vectors, ties", "anchors": ["smt/applications/moe.py:MOE._find_best_heaviside_factor"]}
{"id": "C83", "title": "MOE enabled experts", "statement": "The enabled experts are exactly the known surrogates named in the MOE list which support derivatives (if required) and variances (if required), are in the allow list (if not empty) and are not in the deny list. An empty selection is not rejected when the options are read; choosing an expert then fails.", "quantifier": "every combination of options", "why_tests_cant": "all combinations", "anchors": ["smt/applications/moe.py:MOE._get_enabled_expert_types", "smt/applications/moe.py:MOE._find_best_model"]}
{"id": "C84", "title": "MFK derivatives", "statement": "predict_derivatives of MFK answers exactly for the squared exponential kernel with a constant or linear trend and constant scale factor; it returns the partial derivative of the predicted value for a constant trend, or a linear trend in one variable. With a linear trend in several variables it is off by the sum of the trend coefficients of the other variables.", "quantifier": "every training set, number of levels, query point and direction", "why_tests_cant": "all queries; limits", "anchors": ["smt/applications/mfk.py:MFK._predict_derivatives"]}
{"id": "C85", "title": "MFK start parameters", "statement": "theta0 given as a list is accepted exactly when its length is the dimension or one, or for one-dimensional inputs the number of levels, and then means one value per variable, for all, or per level; in two or more dimensions one value per level, which the error message offers, is refused; an array must have shape (levels, dimension). noise0 is accepted exactly when it is one item (broadcast, with at least two levels) or one one-element list per level; one plain number per level, including the default for a single level, raises TypeError.", "quantifier": "every theta0, noise0, dimension and number of levels", "why_tests_cant": "all combinations of lengths", "anchors": ["smt/applications/mfk.py:MFK._check_param"]}
{"id": "C86", "title": "Multigrid solver and solver names", "statement": "On symmetric positive definite systems the default multigrid solver returns, after any sequence of earlier calls and for any number of cycles, the vector of least energy among those interpolated from the coarsest level (the exact solution when there are no transfer operators). With a stationary smoother and two levels an exact answer is kept when the call is repeated, but the answer in general depends on earlier calls because the stored vectors are never reset. get_solver returns a solver exactly for the documented names; krylov-dense runs without preconditioner, and a multigrid smoother is always rebuilt with default options (jacobi smooths with Gauss-Seidel).", "quantifier": "every system, chain of transfer operators, right-hand side and history of calls", "why_tests_cant": "all sizes and call histories", "anchors": ["smt/utils/linear_solvers.py:MultigridSolver", "smt/utils/linear_solvers.py:get_solver", "smt/utils/linear_solvers.py:LinearSolver._clone"]}
{"id": "C87", "title": "Kriging trends are exactly the polynomials of the declared degree", "statement": "For poly = constant, linear and quadratic the trend functions of the Kriging models have as linear combinations exactly the polynomials of degree at most 0, 1 and 2 in the inputs; there are 1, n+1 and (n+1)(n+2)/2 of them, the first being the constant 1.", "quantifier": "every number of inputs, polynomial and combination", "why_tests_cant": "tests try a few dimensions", "anchors": ["smt/utils/kriging_utils.py:constant", "smt/utils/kriging_utils.py:linear", "smt/utils/kriging_utils.py:quadratic"]}
{"id": "C88", "title": "GENN options beta1 and beta2 have no effect", "statement": "For any two values of the decay options the optimisation visits the same designs, returns the same design and cost history, and fails or not alike (the decay rates are reset to 0.9 and 0.99 at every step).", "quantifier": "every cost, gradient, start, learning rate, iteration count and pair of decay options", "why_tests_cant": "equality of whole runs", "anchors": ["smt/utils/neural_net/optimizer.py:Adam._update_current_design", "smt/surrogate_models/genn.py:GENN"]}
{"id": "C89", "title": "GENN optimiser iteration count", "statement": "An optimisation performs exactly max_iter iterations unless the cost was stalled over the last 101 iterations, and then it stops at the first such iteration; it never stops early within 103 iterations.", "quantifier": "every cost, gradient, start and iteration count", "why_tests_cant": "all histories", "anchors": ["smt/utils/neural_net/optimizer.py:Optimizer.optimize"]}
{"id": "C90", "title": "When GENN training succeeds", "statement": "Training data are accepted exactly when every partial derivative is given with matching shapes and at points that contain a zero entry exactly when the points of the values do (equality of the points is not checked). With a positive batch size training then returns unless some mini-batch has a single example (batch size 1 or remainder 1), when it fails: one training point is never enough and 65 points fail with the default batch size.", "quantifier": "every training set, batch size, seed, permutation and initial weights", "why_tests_cant": "all sizes and remainders", "anchors": ["smt/surrogate_models/genn.py:smt_to_genn", "smt/utils/neural_net/model.py:Model.train", "smt/utils/neural_net/data.py:random_mini_batches"]}
{"id": "C91", "title": "GENN training minimises the declared objective", "statement": "An epoch of training is, batch after batch, a run of Adam started at the previous weights on the cost of the batch: mean squared error of values plus gamma times that of derivatives plus the regularisation, in normalised data. For gamma equal to 0 or 1 the search direction is the exact gradient of this cost with respect to every weight and bias.", "quantifier": "every network size, data set, batch, regularisation and start", "why_tests_cant": "every network and weight", "anchors": ["smt/utils/neural_net/model.py:Model.train", "smt/utils/neural_net/bwd_prop.py:L_model_backward"]}
{"id": "C92", "title": "What the GENN seed determines", "statement": "Two trainings from the same initial weights and seed give the same model. The initial weights are drawn before the seed is applied, so they depend on the prior state of the global random generator; after one training with a seed that state depends only on the seed and the number of examples, so a second training is reproducible.", "quantifier": "every seed, prior generator state and training set", "why_tests_cant": "generator history", "anchors": ["smt/utils/neural_net/model.py:Model.train", "smt/utils/neural_net/data.py:random_mini_batches"]}
{"id": "C93", "title": "Loaded GENN parameters predict without scale factors", "statement": "A trained model predicts with the scaling of its training data; a model that only loaded saved parameters predicts net(x-1)+1, which differs from the saved model's predictions in general.", "quantifier": "every network, parameters and query", "why_tests_cant": "round trip over all models", "anchors": ["smt/surrogate_models/genn.py:GENN", "smt/utils/neural_net/model.py:Model.load_parameters"]}
{"id": "C94", "title": "GENN normalisation is exact and invertible", "statement": "Normalised inputs and outputs have mean 0 and standard deviation 1 in every coordinate that is not constant; undoing the scaling recovers points, values and derivatives; and if the given derivatives are those of a function, the normalised ones are those of the normalised function.", "quantifier": "every data set without constant coordinate, every function", "why_tests_cant": "every data set", "anchors": ["smt/utils/neural_net/data.py:normalize_data", "smt/utils/neural_net/model.py:Model.training_data"]}
{"id": "C95", "title": "The gradient of the likelihood used in training is its derivative", "statement": "Wherever the reduced likelihood can be evaluated, each entry of the gradient that the gradient-based hyperparameter search uses is the partial derivative of the reduced likelihood with respect to that hyperparameter, for every correlation kernel, PLS coefficients, trend, noise and number of degrees of freedom; the gradient handed to the optimiser is the derivative of the function handed to it (minus the likelihood, as a function of the decimal logarithms). Where the likelihood has no value, neither has the gradient.", "quantifier": "every training set, kernel, trend, noise and hyperparameters around which the likelihood is defined", "why_tests_cant": "a derivative is a limit; a finite-difference test checks a few points and cannot separate a wrong small term from rounding", "anchors": ["smt/surrogate_models/krg_based.py:KrgBased._reduced_likelihood_gradient", "smt/surrogate_models/krg_based.py:KrgBased._optimize_hyperparam"]}
{"id": "C96", "title": "The Hessian of the likelihood is the derivative of its gradient", "statement": "With as many degrees of freedom as training points, each Hessian entry is the partial derivative of the corresponding gradient entry; the Hessian is symmetric, and the returned index table contains each unordered pair of hyperparameters exactly once.", "quantifier": "every training set, kernel, trend, noise and hyperparameters around which the likelihood is defined; every pair", "why_tests_cant": "second derivatives are limits over all data sets", "anchors": ["smt/surrogate_models/krg_based.py:KrgBased._reduced_likelihood_hessian"]}
{"id": "C97", "title": "MGP maximises likelihood plus Gaussian log-prior, with exact gradient and Hessian", "statement": "What training an MGP maximises is the reduced likelihood minus the squared distance of the hyperparameters from the prior mean divided by the prior variance; each entry of the gradient given to the optimiser is the partial derivative of it; each Hessian entry is the partial derivative of the gradient entry; the stored precision matrix of the hyperparameters is symmetric and equals minus that Hessian.", "quantifier": "every training set, trend, prior, number of components and hyperparameters around which the likelihood is defined", "why_tests_cant": "derivatives are limits, over all data sets and hyperparameters", "anchors": ["smt/surrogate_models/krg_mgp.py:MGP._reduced_log_prior", "smt/surrogate_models/krg_mgp.py:MGP._specific_train", "smt/surrogate_models/krg_based.py:KrgBased._reduced_likelihood_gradient", "smt/surrogate_models/krg_based.py:KrgBased._reduced_likelihood_hessian"]}
{"id": "C98", "title": "MGP: a point of the active subspace and the point it stands for give the same predictions", "statement": "get_u_from_x after get_x_from_u is the identity; get_x_from_u succeeds exactly when the trained directions are linearly independent; predict_values and predict_variances at a point u of the active subspace equal those at get_x_from_u(u); with a constant trend two points with the same image u have the same predicted value and the same MSE. A query with neither the full nor the reduced number of coordinates is refused. The number of components reported is the least one whose singular values make up more than 99 percent of their sum; theta0 must have length 1 or n_comp times nx.", "quantifier": "every trained MGP and every query; every list of singular values", "why_tests_cant": "quantifies over all trained models and points", "anchors": ["smt/surrogate_models/krg_mgp.py:MGP.get_x_from_u", "smt/surrogate_models/krg_mgp.py:MGP.get_u_from_x", "smt/surrogate_models/krg_mgp.py:MGP.predict_values", "smt/surrogate_models/krg_mgp.py:MGP.predict_variances", "smt/surrogate_models/krg_mgp.py:MGP._check_param"]}
{"id": "C99", "title": "MGP: the sensitivities to the hyperparameters are derivatives of the predictions", "statement": "The derivative of the mean used by MGP's variance, multiplied by the output's standard deviation, is the partial derivative of the predicted value with respect to the hyperparameter, for models retrained at neighbouring hyperparameters and every trend; with a constant trend the derivative of the MSE is the partial derivative of the MSE wherever the MSE is positive.", "quantifier": "every training set, hyperparameters in a neighbourhood of which training succeeds, and query point", "why_tests_cant": "derivatives of the whole training with respect to its hyperparameters", "anchors": ["smt/surrogate_models/krg_mgp.py:MGP._predict_value_derivatives_hyper", "smt/surrogate_models/krg_mgp.py:MGP._predict_variance_derivatives_hyper"]}
{"id": "C100", "title": "MGP's variance: formula, bounds, zeros, failure and behaviour under rescaling", "statement": "predict_variances(both=True) returns the marginal variance first and the MSE second, both nonnegative. The marginal variance is 0 where the MSE is 0 and otherwise 4/3 of the MSE plus the two quadratic forms of the sensitivities in the inverse precision, clipped at 0; it is at least 4/3 of the MSE when the precision is positive semidefinite; it cannot be computed exactly when the precision is singular; it is 0 at training points without noise or nugget. When the outputs are replaced by a y + b, values become a times the value plus b, the MSE is multiplied by the square of a, and the marginal variance is too exactly when the quadratic form of the mean's sensitivities is 0: that term does not contain the output scale.", "quantifier": "every trained MGP, query point and positive scale", "why_tests_cant": "quantifies over all models, points and scales", "anchors": ["smt/surrogate_models/krg_mgp.py:MGP.predict_variances"]}
{"id": "C101", "title": "Noise estimated from replicates: averaging the replicates loses nothing", "statement": "With eval_noise and use_het_noise and one output, the trained Kriging model keeps every distinct training input once, and predicts exactly the best linear unbiased prediction from all observations in which each observation has as noise variance the unbiased sample variance of the outputs observed at its input, or noise0 where these do not spread (nugget ignored); for a constant trend the predicted variance is the process variance times the mean squared error of that predictor. Where there is no noise the prediction is the mean of the observations. The order of the observations does not matter. noise0 must have length one or the number of distinct inputs. With two or more outputs prediction fails except at a single point, where all outputs get the same standardised value.", "quantifier": "every training set with any pattern of replicated inputs, kernel, hyperparameters, trend, noise0, query point and reordering of the observations", "why_tests_cant": "quantifies over all replicate patterns and data; a test compares one fitted curve with a tolerance", "anchors": ["smt/surrogate_models/krg_based.py:KrgBased._new_train", "smt/surrogate_models/krg_based.py:KrgBased._reduced_likelihood_function", "smt/surrogate_models/krg_based.py:KrgBased._predict_values"]}
{"id": "C102", "title": "Gradient-enhanced Kriging adds the right points, once", "statement": "For GEKPLS with one output, at least two inputs and all derivatives given: every local PLS fit uses points within one step of its training point, with first-order Taylor outputs; the training set is extended by extra_points points per training point, each moved by one step in a different input (those with the largest first coefficient in absolute value), with the first-order Taylor output; without nugget and noise the model reproduces the outputs and, over one step in the chosen inputs, the derivatives; for affine functions all added outputs are exact. With a constant trend it trains when the points are further apart than the step. Preparation succeeds exactly when extra_points is 0, or at most the number of inputs and train() is called for the first time since set_training_values. A missing derivative is a KeyError, one input an IndexError, and the positions passed with the derivatives are not read.", "quantifier": "every training set, derivatives, limits, step, extra_points (also negative and too large), number of components, PLS fit, design table meeting its contract and any number of train() calls", "why_tests_cant": "quantifies over all training sets and call sequences; tests train once on one function and look at an error norm", "anchors": ["smt/surrogate_models/gekpls.py:GEKPLS._compute_pls", "smt/utils/kriging_utils.py:ge_compute_pls", "smt/surrogate_models/krg_based.py:KrgBased._new_train"]}
{"id": "C103", "title": "The second phase of KPLSK starts from the model of the first", "statement": "KPLSK gives its second phase, as starting hyperparameters, the weights of the inputs in the PLS model found by the first phase. If they all lie within theta_bounds, the second phase starts exactly there, with the same likelihood, parameters and predictions, so an optimiser that tries its starting point and returns the best point it has tried never ends with a smaller likelihood. A weight outside the bounds (in particular that of an input without PLS coefficient) is replaced by a random number. The trained model is the ordinary Kriging model at the returned hyperparameters. With an estimated noise the second phase starts again from noise0. With eval_noise and use_het_noise the last hyperparameter is dropped by mistake: one component leaves all weights 0, two use the first for both, three or more fail.", "quantifier": "every training set, PLS coefficients, number of components, options, random draws and optimiser behaviour", "why_tests_cant": "adversarial optimisers and all data; a test only sees one optimiser run", "anchors": ["smt/surrogate_models/kplsk.py:KPLSK._componentwise_distance", "smt/surrogate_models/krg_based.py:KrgBased._optimize_hyperparam", "smt/surrogate_models/krg_based.py:KrgBased._reduced_likelihood_function"]}
{"id": "C104", "title": "The order of the training points is irrelevant", "statement": "For Kriging with any kernel, PLS directions, trend, nugget and noise given per point: if training succeeds it succeeds on the same points in any other order, and both models predict the same values, variances and derivatives; the likelihood is the same function of the hyperparameters, with the same failures. The same holds for RBF, QP and LS (outside the data only if the points are not all in one hyperplane), for RMTB and RMTC with any number of outputs and with derivative data (identical training, and the sensitivities to the outputs are listed in the new order), and for IDW except that, at an input given twice with different outputs, the one given first wins.", "quantifier": "every training set, reordering, kernel, hyperparameters, query point and linear-algebra routine meeting its contract", "why_tests_cant": "all permutations of all training sets; tests use one order", "anchors": ["smt/surrogate_models/krg_based.py:KrgBased._reduced_likelihood_function", "smt/surrogate_models/krg_based.py:KrgBased._predict_values", "smt/surrogate_models/krg_based.py:KrgBased._predict_variances", "smt/src/idw/idw.cpp:IDW::compute_jac", "smt/surrogate_models/rbf.py:RBF._train", "smt/surrogate_models/qp.py:QP._new_train", "smt/surrogate_models/ls.py:LS._new_train", "smt/surrogate_models/rmts.py:RMTS._opt_func", "smt/surrogate_models/rmts.py:RMTS._train"]}
{"id": "C105", "title": "Multi-fidelity kriging with estimated noise, and optim_var", "statement": "With the noise given, the multi-fidelity kriging model uses, at each level, the nugget plus the noise0 of that level. Without use_het_noise a level whose noise0 is not a single number is refused. With eval_noise the nugget is not used and each level has one estimated noise variance; with use_het_noise as well, each level predicts what the best linear unbiased predictor of all its observations predicts when every observation has the sample variance of the outputs at its input as noise variance. With optim_var the model is then refitted with nugget and noise0 on the outputs the noisy model predicts at the training inputs: where nugget and noise0 vanish it keeps these predictions; its variance is zero at the inputs of the first level and, for two levels, at inputs shared by both, but not in general at the samples of the highest fidelity, as the description of the option says: with two levels it is positive at every input the first level does not have. Two observations at one input of a level without nugget and noise0 make optim_var fail. Either way the stored outputs have been replaced by predictions and eval_noise has been switched off; a second train() gives the same model and stored state as the first.", "quantifier": "every number of levels, training sets, nugget and noise, kernel, trend, hyperparameter search and query point", "why_tests_cant": "all data sets and numbers of levels; the tests look at the error of a few runs", "anchors": ["smt/applications/mfk.py:MFK._new_train", "smt/applications/mfk.py:MFK._new_train_init", "smt/applications/mfk.py:MFK._new_train_iteration", "smt/applications/mfk.py:MFK._new_train_finalize", "smt/applications/mfk.py:MFK._check_param"]}
{"id": "C106", "title": "What training does to the options of the multi-fidelity models", "statement": "After a train() of MFK, MFKPLS or MFKPLSK that succeeds, training again on data of the same shape succeeds with every level starting from the same theta0 and noise0, and the options stay as they are; but only the same number of levels and, for MFK, of inputs is accepted (with use_het_noise, inputs whose entries all differ and a single noise0: only the same numbers of points). If an exception occurs while a level is fitted, every later train() is refused, whatever the data, until theta0 is written again; all levels then start from the noise0 of the level that failed, and MFKPLSK may have replaced n_comp by the number of inputs. A call refused for the structure of its data changes nothing; one refused for noise0 has already fixed the number of levels and inputs.", "quantifier": "every history of train() calls and writes of theta0 and noise0, every number of levels, inputs and points, and every level at which an exception occurs", "why_tests_cant": "all histories and failure points; tests train fresh objects once", "anchors": ["smt/applications/mfk.py:MFK._new_train", "smt/applications/mfk.py:MFK._new_train_iteration", "smt/applications/mfk.py:MFK._check_param", "smt/applications/mfkplsk.py:MFKPLSK._new_train", "smt/surrogate_models/krg_based.py:KrgBased._optimize_hyperparam"]}
{"id": "C107", "title": "Kriging with several outputs treats each as if alone", "statement": "Training a Kriging-type model (given the hyperparameters) on several outputs succeeds exactly when training on any one of them does, and then the predicted value, variance and derivative of each output at each point of a prediction are those of the model trained on that output alone (derivatives are refused together); in particular every output is reproduced at the training points. The objective v of the hyperparameter search satisfies 10^(-v/nt) = sum over the outputs of 10^(-v_j/nt), v_j being the objective of output j alone; so it does not depend on the units, the sign or the order of the outputs nor on outputs that are constant over the training points, and for outputs that are affine images of one output it is that output's objective minus nt log10(ny).", "quantifier": "every number of outputs and points, all training data, all kernels, trends, hyperparameters, nuggets and noises, all prediction points, all units and orders of the outputs", "why_tests_cant": "a statement over all data and numbers of outputs; tests train with one output", "anchors": ["smt/surrogate_models/krg_based.py:KrgBased._reduced_likelihood_function", "smt/surrogate_models/krg_based.py:KrgBased._predict_values", "smt/surrogate_models/krg_based.py:KrgBased._predict_derivatives", "smt/surrogate_models/krg_based.py:KrgBased._predict_variances", "smt/surrogate_models/surrogate_model.py:SurrogateModel.predict_values", "smt/utils/kriging_utils.py:standardization"]}
{"id": "C108", "title": "The order of the input variables is irrelevant", "statement": "Reordering the columns of the training inputs and of the query points, and with them the hyperparameters or PLS coefficients given per variable (for RBF the widths), changes nothing: for Kriging with any kernel, PLS directions, trend, nugget and noise training succeeds exactly as before with the same sigma2, the same predicted values and the same derivatives of value and variance with respect to each variable, and the likelihood is the same function, with the same failures. The same holds for IDW, RBF, LS and QP (LS away from the data only if the points are not all in one hyperplane, QP if its normal equations are invertible). The reported Kriging variance is unchanged with a constant trend; with a linear trend it is not: a training set of four points in two variables gives two different variances.", "quantifier": "every training set, reordering of the variables, kernel, hyperparameters, trend, query point and linear-algebra routine meeting its contract", "why_tests_cant": "all permutations of all inputs of all data sets; tests use one order", "anchors": ["smt/surrogate_models/krg_based.py:KrgBased._reduced_likelihood_function", "smt/surrogate_models/krg_based.py:KrgBased._predict_values", "smt/surrogate_models/krg_based.py:KrgBased._predict_derivatives", "smt/surrogate_models/krg_based.py:KrgBased._predict_variances", "smt/src/idw/idw.cpp:IDW::compute_jac", "smt/surrogate_models/rbf.py:RBF._train", "smt/surrogate_models/qp.py:QP._new_train", "smt/surrogate_models/ls.py:LS._new_train"]}
{"id": "C109", "title": "What RMTS training minimises", "statement": "The objective that training of the regularized minimal-energy splines minimises is half of: regularization_weight times the sum of squares of the degrees of freedom, plus (if min_energy) energy_weight times the mean over the quadrature points (mid-points of the half elements) of the sum over the inputs of smoothness_k times the square of the model's second partial derivative in x_k there, plus the weighted p-th powers of the errors of the model (or of its derivative, for derivative training data) at the training points; it does not otherwise depend on the domain limits, the number of elements or the scaling of the inputs.", "quantifier": "every number of inputs, element counts, spline orders, domain, smoothness, weights, training data and degrees of freedom, RMTB and RMTC", "why_tests_cant": "an identity between an assembled sparse matrix and an analytic functional for all sizes; tests compare numbers on a few problems", "anchors": ["smt/surrogate_models/rmts.py:RMTS._compute_energy_terms", "smt/surrogate_models/rmts.py:RMTS._compute_approx_terms", "smt/surrogate_models/rmts.py:RMTS._opt_func", "smt/surrogate_models/rmts.py:RMTS._new_train", "smt/src/rmts/rmtb.cpp:RMTB::compute_jac", "smt/src/rmts/rmtc.cpp:RMTC::compute_jac"]}
{"id": "C110", "title": "Numerically differentiated benchmark problems", "statement": "The benchmark problems WaterFlow, WaterFlowLFidelity, WingWeight, WeldedBeam and TorsionVibration return a number at every point of their limits, given by their closed formula. The derivative they return by default (complex step) tends, as the step tends to zero, to the partial derivative of that value, and is a number for every small step; with use_FD the number returned is the exact partial derivative at a point less than 1e-6 away in that direction. The formula printed in the documentation of WeldedBeam is a different function (smaller everywhere in the limits).", "quantifier": "all points within the limits, all variables, all small steps", "why_tests_cant": "tests check a few points against finite differences of the same code; a singularity, a branch cut of a complex square root or a wrong formula elsewhere in the box would go unnoticed", "anchors": ["smt/problems/water_flow.py:WaterFlow", "smt/problems/water_flow_lfidelity.py:WaterFlowLFidelity", "smt/problems/wing_weight.py:WingWeight", "smt/problems/welded_beam.py:WeldedBeam", "smt/problems/torsion_vibration.py:TorsionVibration"]}
{"id": "C111", "title": "RMTS with several outputs", "statement": "Training an RMTS model on several outputs gives every output the solution it gets when trained alone, or zero where training it alone would raise; training raises exactly when every output alone raises (so an all-zero output is harmless beside another), and a line search fails exactly when it fails for some output alone. The output derivatives of all outputs are computed with one matrix, that of one of the outputs; with approx_order 2 they are exact for every output on a newly trained model, with approx_order 4 they can be those of another output's matrix. Retraining a model on outputs that need no iteration keeps the matrix of the earlier training data, so that its output derivatives are wrong.", "quantifier": "all numbers of outputs, training data, orders, tolerances, iteration limits, linear solvers and line searches, new or retrained models", "why_tests_cant": "a statement about sharing between loop passes; tests train one output or do not compare with separate models", "anchors": ["smt/surrogate_models/rmts.py:RMTS._run_newton_solver", "smt/surrogate_models/rmts.py:RMTS._solve", "smt/surrogate_models/rmts.py:RMTS._train", "smt/surrogate_models/rmts.py:RMTS._predict_output_derivatives"]}
{"id": "C112", "title": "Change of units for IDW, RBF, QP, LS and RMTS", "statement": "Training the same model in other units gives the same model in those units: values are converted like outputs, derivatives are multiplied by the output factor and divided by the input factor. IDW follows every affine change of the outputs and every common non-zero factor with arbitrary shifts of the inputs, but not different factors for different inputs (refuted). RBF follows an output factor, an output shift if it has a polynomial trend (refuted without), and one factor and shift per input when d0 is converted too. QP and LS follow every affine change of outputs and inputs (LS: everywhere if the training points determine an affine function, else at the training points). RMTS with approx_order 2 follows an output factor, with order 4 it need not (refuted). RMTB and RMTC, with xlimits converted and smoothness k multiplied by the fourth power of the factor of input k, run exactly the same training and predict the same function, inside and outside the domain; with smoothness left alone a common factor a divides the energy term by a to the fourth, and residuals of derivative training data are divided by the factor of their variable. GENN with positive factors (constant coordinates left alone; derivative data on the same inputs, converted) ends training with the same weights, history and generator - or the same failure - only the stored scale factors being converted, and predicts the converted values and derivatives (derivatives: one output, at several points).", "quantifier": "all training data, inputs, prediction points, positive (RMTS) or non-zero factors, shifts, orders, numbers of elements and options", "why_tests_cant": "an equality between two differently scaled models over all units; tests use one scaling", "anchors": ["smt/surrogate_models/idw.py:IDW._predict_values", "smt/surrogate_models/rbf.py:RBF._train", "smt/surrogate_models/qp.py:QP._new_train", "smt/surrogate_models/ls.py:LS._new_train", "smt/surrogate_models/rmts.py:RMTS._compute_energy_terms", "smt/surrogate_models/rmts.py:RMTS._compute_prediction_mtx", "smt/surrogate_models/rmtb.py:RMTB._compute_jac_raw", "smt/surrogate_models/rmtc.py:RMTC._compute_jac_raw", "smt/surrogate_models/genn.py:GENN._train", "smt/utils/neural_net/data.py:normalize_data"]}
{"id": "C113", "title": "EGO with Kriging: where the acquisition vanishes, repeated points, virtual outputs and evaluation budget", "statement": "Expected improvement is zero exactly where the predicted variance is zero and otherwise exceeds the improvement of the mean, max(best - mean, 0), by more than 0 and at most sqrt(variance / (2 pi)). For Kriging with any trend and positive hyperparameters the predicted variance is zero exactly at the inputs given with zero nugget plus noise, or everywhere if the estimated process variance is zero, which happens exactly when the outputs are a function of the trend; with a constant trend the variance at a training input is at most the process variance times nugget plus noise. Hence without nugget and noise, as long as every point the internal optimisation proposes has positive expected improvement, EGO never stores a point twice, also inside a parallel batch. The virtual outputs satisfy KBLB <= KB <= KBUB with equality only without uncertainty; CLmin leaves the best value unchanged. With 1 <= n_parallel <= size of the initial design the objective receives exactly n_iter * n_parallel rows beyond the initial design whichever internal optimisations fail; if all fail, nothing is stored and the last n_parallel design points are evaluated again in every iteration.", "quantifier": "every training set, kernel, trend, nugget, noise, query, best value, acquisition behaviour and failure pattern, n_iter, n_parallel", "why_tests_cant": "statements over all models and all histories of proposals; tests run a few iterations on one objective", "anchors": ["smt/applications/ego.py:EGO.EI", "smt/applications/ego.py:EGO._find_best_point", "smt/applications/ego.py:EGO._get_virtual_point", "smt/applications/ego.py:EGO.optimize", "smt/surrogate_models/krg_based.py:KrgBased._predict_variances"]}
{"id": "C114", "title": "MFK: order of the points and units", "statement": "Listing the points of each fidelity level in another order, and writing the inputs and outputs of all levels in other units (positive factors and shifts, one per input column, one for the outputs), gives the same success or failure of training, and the same predictions, predictions of every intermediate level, variances of every level (for MFK, MFKPLS, MFKPLSK) and derivatives, expressed in the new units. The condition that every input column and the outputs take two different values over all levels together is all that is needed. If the scale-factor polynomial has degree at most that of the trend and both trainings succeed, the outputs of every level may even be written in units of their own (nonzero factor of any sign, shift): predictions and derivatives of a level then change only by the units of that level, so the highest-fidelity prediction does not depend on the units of the lower ones, and the variances of the two lowest levels scale with the square of their own factor.", "quantifier": "every number of levels, training data per level, reordering of each level, units, kernel, hyperparameters, noise, trend and scale-factor polynomials, query point", "why_tests_cant": "a relation between two trainings, for all data and all changes of units", "anchors": ["smt/applications/mfk.py:MFK._new_train", "smt/applications/mfk.py:MFK._predict_values", "smt/applications/mfk.py:MFK._predict_intermediate_values", "smt/applications/mfk.py:MFK.predict_variances_all_levels", "smt/applications/mfk.py:MFK._predict_derivatives"]}
{"id": "C115", "title": "GENN: reading training data from a file and reported goodness of fit", "statement": "R-square of a response is 1 - (mean squared error) / (variance of the true values + 1e-8): at most 1, equal to 1 exactly for perfect predictions, and the mean squared error is the squared mean error plus the squared deviation of the errors. Given several responses in one call the reference is the mean of all of them, so each gets at least the R-square it would get alone, more unless it is predicted perfectly or its mean is the mean of all. goodness_of_fit answers exactly for test data of the right shape (and, with partials, for a model trained with partials); its figures are within 0.005 of the exact values and R_squared reads 1 exactly if the mean squared error is at most 0.5 percent of the variance plus 1e-8. load_csv of a file with at least two named columns succeeds exactly if the data have at least two lines and two columns, all lines are equally long, inputs and outputs are given, every label is a column name, and the partials fit into outputs x inputs; it returns for each label the first column of that name, in the order of the lines, and zeros for partials that were not given.", "quantifier": "every true and predicted values, number of responses and examples, test data and shapes, file contents, label lists", "why_tests_cant": "statements over all data; tests train one network on one file", "anchors": ["smt/utils/neural_net/metrics.py:rsquare", "smt/utils/neural_net/model.py:Model.goodness_of_fit", "smt/utils/neural_net/data.py:load_csv"]}
{"id": "C116", "title": "Predictions far from the training data", "statement": "If the kernel reacts to every input (positive theta; for KPLS at least one component with positive theta and a nonzero coefficient of the input; not act_exp), then for every tolerance there is a distance such that, as soon as any one input is at least that large in absolute value and whatever the others are, the Kriging or KPLS prediction differs by less than the tolerance from the trend fitted by generalised least squares to the raw outputs. With a constant trend the limit is the mean of the outputs weighted by the row sums of the inverse correlation matrix, and the predicted variance tends to the process variance times one plus the inverse of the sum of these weights; with a linear or quadratic trend and a positive process variance the predicted variance exceeds every bound. An input with theta equal to zero is never forgotten: with a constant trend the prediction does not depend on it at all. IDW predictions tend to the plain mean of the training outputs for every exponent p; RBF predictions tend to the polynomial tail (zero with poly_degree -1); GENN predictions with a tanh or sigmoid last hidden layer and linear output stay, at every input, within a bound computed from the output layer and the scale factors.", "quantifier": "all training sets, hyperparameters and query points, all tolerances; all kernels except act_exp, all trends, all p, all networks", "why_tests_cant": "extrapolation to arbitrarily distant points is a limit statement; no finite set of queries shows it", "anchors": ["smt/surrogate_models/krg_based.py:_predict_values,_predict_variances", "smt/utils/kriging_utils.py:squar_exp,abs_exp,matern52,matern32", "smt/src/idw/idw.cpp", "smt/src/rbf/rbf.cpp", "smt/utils/neural_net/fwd_prop.py"]}
{"id": "C117", "title": "Superposition and reproduction of trend polynomials", "statement": "For given hyperparameters, whether a Kriging or KPLS model can be trained does not depend on the training outputs, each prediction is a weighted sum of the outputs with weights that depend only on the inputs and that sum to one, and so predicted values and derivatives of the model trained on a*y1 + b*y2 are a times those of the model of y1 plus b times those of the model of y2; if the outputs are the values of any polynomial of the degree of the trend (constant, linear or quadratic, in the raw inputs), then the model returns that polynomial at every point with predicted variance zero, whatever the kernel, nugget and noise. Superposition also holds for IDW (values and derivatives), RBF (values and derivatives, when its linear system is regular), QP, and LS (at the training points always, everywhere if they are not all in one hyperplane).", "quantifier": "all training inputs, all pairs of output vectors and all coefficients, all query points, kernels, trends, polynomials", "why_tests_cant": "an identity between three trained models for all outputs and all points; tests compare a few trainings", "anchors": ["smt/surrogate_models/krg_based.py:_reduced_likelihood_function,_predict_values,_predict_derivatives,_predict_variances", "smt/surrogate_models/idw.py", "smt/surrogate_models/rbf.py", "smt/surrogate_models/qp.py", "smt/surrogate_models/ls.py"]}
{"id": "C118", "title": "GENN with full batches: order and seed", "statement": "When the mini_batch_size option is 0 or at least the number of training points (the default 64 for up to 64 points), training GENN from given initial weights gives the same network, scale factors, predictions and cost history, or the same failure, whatever the order in which the training points (values and derivatives alike) are listed and whatever the seed, the random generator and its shuffles; in particular the seed option then has no effect at all, since the initial weights are drawn before the generator is seeded. With smaller batches the order of the points changes the network, even without shuffling.", "quantifier": "all training sets, orders, options with full batches, seeds, generators and shuffles, numbers of epochs and iterations", "why_tests_cant": "order and seed independence relates any two trainings; the tests train once on one data set in one order", "anchors": ["smt/surrogate_models/genn.py:_train,smt_to_genn", "smt/utils/neural_net/model.py:train", "smt/utils/neural_net/data.py:random_mini_batches,normalize_data", "smt/utils/neural_net/fwd_prop.py", "smt/utils/neural_net/bwd_prop.py", "smt/utils/neural_net/loss.py", "smt/utils/neural_net/optimizer.py"]}
{"id": "C119", "title": "Adding data a model already predicts", "statement": "Training on more points whose outputs are exactly what the model of the first points predicts there (as when virtual points are added to a data set) changes no prediction: Kriging and KPLS with any trend, nugget and noise when the kernel stays the same function of the raw inputs (hyperparameters follow the standard deviations of the inputs), RBF for every regularisation and trend degree, LS, and QP. The Kriging process variance is then multiplied by n/N exactly and, with a constant trend, the predicted variance by at most n/N; whatever the new outputs, the variance relative to the process variance never grows with more points. With unchanged hyperparameters Kriging predictions do change, because inputs are standardised anew, and IDW has no such property for any nonzero exponent.", "quantifier": "all training sets, extensions, queries, kernels, trends, nuggets, noises, regularisations", "why_tests_cant": "consistency relates the trainings on two data sets of any sizes at every query; the tests never extend a data set", "anchors": ["smt/surrogate_models/krg_based.py:_new_train,_predict_values,_predict_variances", "smt/utils/kriging_utils.py:standardization", "smt/surrogate_models/rbf.py:_new_train", "smt/surrogate_models/ls.py", "smt/surrogate_models/qp.py", "smt/surrogate_models/idw.py"]}
{"id": "C120", "title": "A batch of query points is predicted point by point", "statement": "Given an array of query points, IDW and RBF (values and derivatives, any number of outputs), RMTB and RMTC (values and derivatives, inside and outside the domain), Kriging and KPLS (values, derivatives and variances) return in row e exactly what the same model returns for the e-th point alone, whatever the other points, their number (also when the correlation table spans several blocks of 10000 rows), and whatever np.empty or an earlier call left in the output buffers and in the work arrays of the compiled routines; Kriging derivatives are refused for an array exactly when they are refused for a point. The exception is predict_variance_derivatives of Kriging, documented for a set of points: it gives the value of the single-point formula for one point and raises for two or more.", "quantifier": "every number of query points and coordinates, model, training set, buffer contents", "why_tests_cant": "independence of the rows is about all batch sizes and all other points; the tests compare few batches of fixed size", "anchors": ["smt/surrogate_models/krg_based.py:_predict_values,_predict_derivatives,_predict_variances,_predict_variance_derivatives", "smt/utils/kriging_utils.py:differences,componentwise_distance,componentwise_distance_PLS", "smt/src/idw/idw.cpp", "smt/src/rbf/rbf.cpp", "smt/src/rmts/rmtb.cpp:compute_jac", "smt/src/rmts/rmtc.cpp:compute_jac", "smt/src/rmts/rmts.cpp:compute_ext_dist", "smt/surrogate_models/rmts.py:_compute_prediction_mtx"]}
{"id": "C121", "title": "RMTB and RMTC reproduce functions that are affine in each coordinate, and training never does worse than the best of them", "statement": "For every function f that is affine in each coordinate separately (linear functions, and also products of distinct coordinates), RMTB with orders of at least 2 and RMTC have coefficients (values at the Greville points; vertex values and mixed derivatives) whose model equals f, with equal derivatives, at every point of the box (RMTB: wherever the normalised coordinates are in the interval from 1e-15 to 1-1e-15; beyond it, and for both classes outside the box, the model is f at the clipped point). With extrapolation RMTC reproduces linear functions everywhere and RMTB up to 1e-15 times the change of f over the box. A trained model with approximation_order 2, and any minimiser of the training objective for other orders, never has a larger sum of regularisation and weighted data misfit than any such f, whatever the energy weights. Order 1 in a dimension does not reproduce the coordinate.", "quantifier": "every dimension, orders, control points, elements, box, function, data, weights, query point", "why_tests_cant": "a statement about all coefficients, functions and points; tests compare a few trained models with loose tolerances", "anchors": ["smt/surrogate_models/rmtb.py:_compute_jac_raw,_compute_energy_terms", "smt/surrogate_models/rmtc.py:_compute_jac_raw,_compute_uniq2coeff,_compute_energy_terms", "smt/surrogate_models/rmts.py:_solve,_opt_func,_predict_values,_predict_derivatives", "smt/src/rmts/rmtb.cpp", "smt/src/rmts/rmtc.cpp", "smt/src/rmts/utils.cpp"]}
{"id": "C122", "title": "What one more observation changes in a Kriging model", "statement": "When the kernel stays the same function of the raw inputs, training with one more point (any output, any noise) moves the prediction at every x by r*c(x)/v, where r is the error of the old prediction at the new input, v > 0 the relative variance of that observation and c(x) the covariance of the two prediction errors; the mean squared error of the best linear unbiased prediction decreases by c(x)^2/v whatever is observed; the process variance times the number of points grows by r^2/v; at the new input the new model predicts y - (nugget+noise)*r/v, hence y itself without nugget and noise. With a constant trend this is visible in the outputs: the squared change of a prediction is the decrease of its relative variance times r^2/v.", "quantifier": "every trend, kernel, nugget, noise, training set, new point, query point", "why_tests_cant": "exact identities for all data sets and points; tests compare single runs with tolerances", "anchors": ["smt/surrogate_models/krg_based.py:_train,_new_train,_reduced_likelihood_function,_predict_values,_predict_variances", "smt/utils/kriging_utils.py:standardization", "smt/applications/ego.py:optimize"]}
{"id": "C123", "title": "What the solver option does to RMTS training", "statement": "On the symmetric positive definite systems of RMTS training with an even order the solvers lu, mg and (when SciPy writes into the array it is given) dense-chol leave the exact solution in the array passed, whatever it holds, so choosing among them changes neither the trained coefficients nor the stored matrix nor the failure, and for order 2 training ends at the strict minimum of the objective. dense-lu never trains a model (the assembled matrix is sparse; assertion). null trains without error to all-zero coefficients whatever the data. gs lowers the objective in the first iteration of each run. dense-chol when SciPy solves into a copy (a column of several outputs) leaves the right-hand side: steps go along minus the gradient, output derivatives are minus the right-hand sides, and order-2 training need not reach the minimum however many iterations are allowed.", "quantifier": "every training problem, solver name, order, tolerance and iteration limit", "why_tests_cant": "all problem sizes and data; tests train a few models with one solver", "anchors": ["smt/utils/linear_solvers.py:DenseCholeskySolver,DenseLUSolver,DirectSolver,StationarySolver,MultigridSolver,NullSolver,get_solver", "smt/surrogate_models/rmts.py:_run_newton_solver,_solve,_new_train,_predict_output_derivatives"]}
{"id": "C124", "title": "Turning, mirroring and moving the input axes", "statement": "When the inputs of the training points and of the points asked for are all replaced by Q x + t with Q orthogonal (a rotation or reflection and a shift), IDW, and RBF with the same length scale d0 in every input, predict the same values, and the derivative along an old axis j is the combination with weights Q_kj of the derivatives predicted along the new axes; for IDW the output derivatives are the same too. LS and QP predict the same for every invertible Q whenever the training points determine the fit (LS always agrees at the training points), and the derivatives QP predicts give the slope of its predictions in every direction. RBF with different length scales per input does change its predictions when the axes are turned.", "quantifier": "every number of inputs, training set, orthogonal or invertible matrix, shift and prediction point", "why_tests_cant": "quantifies over all training sets and all changes of coordinates; tests use the axes of the problem", "anchors": ["smt/src/idw/idw.cpp:compute_jac,compute_jac_derivs", "smt/surrogate_models/idw.py:_predict_values,_predict_derivatives,_predict_output_derivatives", "smt/src/rbf/rbf.cpp:compute_jac,compute_jac_derivs", "smt/surrogate_models/rbf.py:_new_train,_predict_values,_predict_derivatives", "smt/surrogate_models/ls.py:_train,_predict_values,_predict_derivatives", "smt/surrogate_models/qp.py:_new_train,_predict_values,_predict_derivatives"]}
{"id": "C125", "title": "Predictions are continuous functions of the query point", "statement": "The values predicted by LS, QP, RBF and Kriging (every kernel and trend) and the variances predicted by Kriging are continuous at every query point, for any coefficients. IDW is continuous everywhere for every exponent p > 0, at the training points too, where another branch of the code answers, when no training point is repeated. RMTB is continuous everywhere, the boundary of the box included, with and without extrapolation, when every spline order is at least 2; with order 1 it jumps. RMTC is continuous everywhere, with and without extrapolation, and so are the derivatives it predicts without extrapolation. The smooth recombination of a mixture of experts is continuous (value and variance) wherever its densities and experts are; the hard one is not.", "quantifier": "every model, number of inputs, training set, set of coefficients and query point", "why_tests_cant": "an epsilon-delta statement at every point of every model; a test can only compare finitely many pairs of points", "anchors": ["smt/src/idw/idw.cpp:compute_jac", "smt/src/rbf/rbf.cpp:compute_jac", "smt/surrogate_models/ls.py:_predict_values", "smt/surrogate_models/qp.py:_predict_values", "smt/surrogate_models/krg_based.py:_predict_values,_predict_variances", "smt/src/rmts/rmtb.cpp:compute_jac", "smt/src/rmts/rmtc.cpp:compute_jac,compute_uniq2elem", "smt/surrogate_models/rmts.py:_predict_values", "smt/applications/moe.py:_predict_smooth_output,_predict_hard_output"]}
{"id": "C126", "title": "What an error in the training outputs does to the predictions", "statement": "If every training output of an IDW model is changed by at most eps, no prediction changes by more than eps, and raising outputs never lowers a prediction. The smooth recombination of a mixture of experts amplifies no error of its experts either. For LS and QP the sum over the training points of the squared changes of the predictions is at most the sum of the squared changes of the outputs. Away from the training points LS does amplify errors, and so does RBF between them.", "quantifier": "every number of inputs, training set, pair of output vectors, exponent, prediction point", "why_tests_cant": "quantifies over all perturbations of all training outputs", "anchors": ["smt/src/idw/idw.cpp:compute_jac", "smt/surrogate_models/idw.py:_predict_values", "smt/surrogate_models/ls.py:_new_train,_predict_values", "smt/surrogate_models/qp.py:_new_train,_predict_values", "smt/surrogate_models/rbf.py:_new_train,_predict_values", "smt/applications/moe.py:_predict_smooth_output"]}
