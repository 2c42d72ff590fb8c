# Formal model of SMT (Surrogate Modeling Toolbox) in Rocq/Coq 8.16.1

## Layout

* `rocq/theories/*_M.v` - model files: definitions only (no proofs), every definition cites the file and lines of /repo it models and says where it simplifies.
* `rocq/theories/*_S.v` - small specifications independent of the model's helpers (when the statement needs one).
* `rocq/theories/*_P.v` - proofs.
* `rocq/theories/*_T.v` - property theorems only: each is closed by `exact lemma`, followed by `Print Assumptions`; next to each an `Example ..._nonvacuous` showing a concrete case that meets the hypotheses.
* `properties.jsonl` - English properties; `MANIFEST.json` - property -> theorem names and status; `seeded/LOG.jsonl` - mutation log.

Naming: `Cxx_...` theorems are the property; suffix `_partial` = only part of the English property, `_refuted` = the unchanged code violates the (full) property, with a witness.

## Modelling conventions

* Floating-point numbers are exact: real numbers (`R`) for analytic code, rationals (`Q`) where the model should be executable. Rounding, overflow, NaN and infinities of IEEE arithmetic are not modelled.
* numpy arrays are lists or functions on indices; in-place mutation becomes an explicit heap (where aliasing is the point) or a returned value.
* Exceptions are values (`Err ...` / `None`), never totalised away: where Coq's `nth` or division is totalised, theorems carry the guard under which the code does not raise.
* Random generators, optimisers (COBYLA/SLSQP/TNC/...), clustering (GaussianMixture), linear-algebra kernels (Cholesky, QR, triangular solve, lstsq, eigen/PLS) and user objectives are oracles: Section variables generalised in the theorem, with their assumed contract as explicit hypotheses. Loops over oracles quantify over every oracle stream.
* Loops are structural recursion, folds, or recursion on fuel with an explicit out-of-fuel result that the theorems exclude.

## Trusted base

* Coq 8.16.1 kernel (and `coqchk`), the standard library's classical-real axioms `ClassicalDedekindReals.sig_forall_dec`, `ClassicalDedekindReals.sig_not_dec`, `FunctionalExtensionality.functional_extensionality_dep` and `Classical_Prop.classic`. No axiom is added by this development. See "Assumptions per theorem" below (filled from `Print Assumptions`).
* Faithfulness of the hand-written models to the cited source lines (the code is not executed here).
* Contracts assumed of third-party numerics, listed at each theorem as hypotheses.

## Per-property plan

| id | property | models | theorem files | approach | status |
|---|---|---|---|---|---|
| C01 | Options read back the last accepted write | Options_M | Options_T | state machine over finite maps (association lists), refinement to an abstract last-write map by induction over the history | proved |
| C02 | Stored option values satisfy their declaration | Options_M | Options_T | invariant by induction over the history; refutation witness for failed redeclaration | proved |
| C03 | Writes are accepted exactly by the declared rule | Options_M | Options_T | acceptance condition proved as an iff; `_refuted` with the KRG `corr` declaration | proved |
| C04 | Cloned options are independent | Options_M | Options_T | two-object heap of dictionaries; frame theorem by induction over histories | proved |
| C05 | Training data are what was last set, by value | Training_M | Training_T | heap of caller arrays + surrogate store; refinement to an abstract by-value store | proved |
| C06 | Updating training derivatives updates exactly that derivative | Training_M | Training_T | `_refuted` witness + theorem for the case where all lower entries are present | proved |
| C07 | Prediction calls validate and do not touch the caller's array | Training_M | Training_T | predictor = arbitrary heap transformer on its own copy; frame theorem | proved |
| C08 | Unfolded space has the advertised dimension | MixInt_M | MixInt_T | structural induction on the type list | proved |
| C09 | Enum folding and unfolding are inverse | MixInt_M | MixInt_T | structural induction on the type list | proved |
| C10 | Discrete projection is idempotent and selects one level | MixInt_M | MixInt_T | structural induction; ties `_refuted` | proved |
| C11 | Integer coordinates stay inside integer bounds | MixInt_M | MixInt_T | rounding lemmas over Q; non-integer bounds `_refuted` | proved |
| C12 | Scaled samples stay inside the requested bounds | MixInt_M, Sampling_M | Sampling_T | real arithmetic, induction on rows | proved |
| C13 | Full factorial returns the requested number of distinct points | MixInt_M, Sampling_M | Sampling_T | mixed-radix enumeration, injectivity of the linear index map | proved |
| C14 | Full factorial level search terminates with balanced levels | MixInt_M, Sampling_M, Weights_M | Sampling_T, Weights_T | loop with explicit fuel; termination measure; invariant | proved |
| C15 | Latin hypercube optimisation preserves the Latin property | LHS_M | LHS_T | oracle-driven loop; column permutation invariant by induction over the oracle stream | proved |
| C16 | Latin hypercube optimisation never returns a worse plan | LHS_M | LHS_T | oracle-driven loop; finite-sum identity for the incremental criterion | proved |
| C17 | Nested designs are nested | Nested_M | Nested_T | list deletion model with an arbitrary nearest-neighbour oracle | proved |
| C18 | Tensor-product index maps are inverse bijections | Index_M | Index_T | mixed-radix arithmetic | proved |
| C19 | B-spline bases form a partition of unity | Index_M, Rmtb_M | Rmtb_T | Cox-de Boor array algorithm over R; loop invariants for all orders | proved |
| C20 | RMTB reproduces constants | Index_M, Rmtb_M | Rmtb_T | tensor product of partitions of unity | proved |
| C21 | RMTC elements agree on shared vertices | Index_M, Rmtb_M, Rmtc_M | Rmtc_T | mixed-radix arithmetic | proved |
| C22 | RMTC element search is correct | Index_M, Rmtb_M, Rmtc_M | Rmtc_T | real/integer arithmetic | proved |
| C23 | RMTS training gradient matches the training objective | Index_M, LineSearch_M, Rmtb_M, Rmtc_M, RmtsTrain_M | RmtsTrain_T | function vectors over R and Coquelicot derivatives | proved |
| C24 | RMTS derivative training weight is honoured | Index_M, LineSearch_M, Rmtb_M, Rmtc_M, RmtsTrain_M | RmtsTrain_T | `_refuted`: result independent of grad_weight | proved |
| C25 | RMTS extrapolates linearly | Index_M, Rmtb_M, Rmtc_M | Rmtb_T, Rmtc_T | clipping over R | proved |
| C26 | IDW interpolates and stays between the data | Idw_M | Idw_T | lists/functions over R | proved |
| C27 | IDW derivatives are derivatives of IDW predictions | Idw_M | Idw_T | Coquelicot is_derive | proved |
| C28 | RBF interpolates up to its regularisation | Rbf_M | Rbf_T | finite sums over R | proved |
| C29 | RBF derivatives are derivatives of RBF predictions | Rbf_M | Rbf_T | Coquelicot is_derive | proved |
| C30 | QP derivative and basis indexing | Poly_M | Poly_T | triangular index arithmetic + is_derive | proved |
| C31 | LS fits are least-squares optimal and reproduce linear data | Poly_M | Poly_T | finite sums; normal equations as oracle spec | proved |
| C32 | Correlation kernels are valid correlations | Kernels_M | Kernels_T | exp/sqrt over R | proved |
| C33 | Kernel gradients are derivatives | Kernels_M | Kernels_T | Coquelicot is_derive | proved |
| C34 | Pairwise distances enumerate every pair once | Kernels_M, Krg_M, Tri_M | Krg_T | index lists over nat | proved |
| C35 | Kriging interpolates up to nugget | Kernels_M, Krg_M, Tri_M | Krg_T | finite-sum matrices; Cholesky/QR/triangular solves as oracle specs | proved |
| C36 | Kriging derivatives are derivatives of kriging predictions | Kernels_M, Krg_M, Tri_M | Krg_T | Coquelicot is_derive | proved |
| C37 | Kriging variance is the universal-kriging variance | Kernels_M, Krg_M, Tri_M | Krg_T | finite-sum matrices; `_refuted` for p=2 | proved |
| C38 | Kriging predictions are equivariant under affine rescaling of data | Kernels_M, Krg_M, Tri_M | Krg_T | standardization algebra | proved |
| C39 | Hyperparameter search terminates and returns the best start | HyperOpt_M, Krg_M | HyperOpt_T | oracle-driven retry loop; termination measure; best-so-far invariant | proved |
| C40 | Retraining: when it is the same as training a fresh model | HyperOpt_M, Krg_M | HyperOpt_T | option state machine; `_refuted` | proved |
| C41 | EGO's data set is consistent with the objective | EgoEI_M, Ego_M, MixInt_M | Ego_T | oracle-driven loop; invariant by induction over iterations | proved |
| C42 | EGO's acquisition retry reports success when it succeeds | EgoEI_M, Ego_M, MixInt_M | Ego_T | retry loop; exact success condition; `_refuted` | proved |
| C43 | Expected improvement is non-negative and vanishes with certainty | EgoEI_M, Ego_M, MixInt_M | Ego_T | normal pdf concrete; cdf given by its defining properties as hypotheses of the theorem | proved |
| C44 | Which rows EGO passes to the objective in mixed-integer problems | EgoEI_M, Ego_M, MixInt_M | Ego_T | `_refuted` on the composition of representation functions | proved |
| C45 | MOE test/training split is a partition | Moe_M | Moe_T | index lists | proved |
| C46 | MOE smooth prediction is a convex combination of experts | Moe_M | Moe_T | finite sums over R | proved |
| C47 | MOE picks the expert with the smallest validation score | Moe_M | Moe_T | `_refuted` witness (broadcast residual matrix) | proved |
| C48 | VFM reproduces high-fidelity data through an interpolating bridge | Vfm_M | Vfm_T | arbitrary surrogates as functions | proved |
| C49 | Effect of VFM on the option dictionaries it is given | Vfm_M | Vfm_T | heap of dictionaries; `_refuted` | proved |
| C50 | Multi-fidelity kriging recursion | Kernels_M, Krg_M, Mfk_M, Tri_M | Mfk_T | recursion over levels on R | proved |
| C51 | MFK rejects inconsistent level dimensions | Kernels_M, Krg_M, Mfk_M, Tri_M | Mfk_T | list check; iff characterisation; `_refuted` | proved |
| C52 | Cached results are transparent | Cache_M | Cache_T | state machine over a file map; crash point = body raising | proved |
| C53 | Timing/printing context is balanced | Printer_M | Printer_T | program trees of nested contexts with failures | proved |
| C54 | Line search returns sufficient decrease | LineSearch_M | LineSearch_T | midpoint search ends: the bracket keeps a slope sign change, halving plus continuity (compactness) gives a Wolfe point; loop with fuel; termination from differentiability (Coquelicot) | proved |
| C55 | Stationary iterations fix exactly the solutions | LinSolve_M | LinSolve_T | function vectors over R | proved |
| C56 | RMS error helper returns the relative error | Rms_M | Rms_T | argument-combination model with exceptions as values | proved |
| C57 | Silence restores the previous output streams | Silence_M | Silence_T | stream stack machine | proved |
| C58 | Benchmark problem derivatives are derivatives | Problems_M | Problems_T | Coquelicot is_derive for each closed form, all dimensions | proved |
| C59 | Reduced problems are sections of the full problem | Problems_M | Problems_T | list model | proved |
| C60 | Mini-batches partition the training set | GennOpt_M, GennTrain_M, Genn_M | GennTrain_T | list slicing | proved |
| C61 | Network Jacobian is the derivative of the network | Genn_M | Genn_T | is_derive by induction over layers | proved |
| C62 | Back-propagated gradient is the gradient of the cost | Genn_M | Genn_T | is_derive by induction over layers (adjoint argument); `_refuted` for gamma = 1/2 | proved |
| C63 | Activation derivatives are derivatives | Genn_M | Genn_T | Coquelicot is_derive | proved |
| C64 | Optimiser line search ends and accepts only decrease or a tiny step | GennOpt_M | GennOpt_T | loop with fuel, termination bound | proved |
| C65 | GENN predicts derivatives at any number of points | Genn_M | Genn_T | numpy broadcasting shape model; `_refuted` | proved |
| C66 | Goodness-of-fit check does not alter the model's training data | GennOpt_M, GennTrain_M, Genn_M | GennTrain_T | aliasing heap; `_refuted` | proved |
| C67 | Mixed-integer samples are legal designs | MixInt_M | MixInt_T | list model of the samplers over the mixed-integer representation | proved |
| C68 | Mixed-integer surrogate is asked where it was trained | MixInt_M | MixInt_T | composition of representation functions; iff for continuous bounds | proved |
| C69 | RMTB derivative predictions are derivatives of predictions | Index_M, Rmtb_M | Rmtb_T | Coquelicot is_derive through the B-spline basis derivative recursion | proved |
| C70 | RMTC prediction is the tensor cubic Hermite interpolant | Index_M, Rmtb_M, Rmtc_M | Rmtc_T | uniqueness of the cubic Hermite tensor interpolant | proved |
| C71 | RMTC derivative predictions are derivatives of predictions | Index_M, Rmtb_M, Rmtc_M | Rmtc_T | Coquelicot is_derive on each element and across element faces | proved |
| C72 | RMTS training minimises its objective | Index_M, LineSearch_M, Rmtb_M, Rmtc_M, RmtsTrain_M | RmtsTrain_T | positive semidefinite Hessian; convex minimisation | proved |
| C73 | RMTS trains on any outputs | Index_M, LineSearch_M, Rmtb_M, Rmtc_M, RmtsTrain_M | RmtsTrain_T | exact success condition of the training pipeline | proved |
| C74 | Cached RMTS energy terms do not depend on the domain | Index_M, LineSearch_M, Rmtb_M, Rmtc_M, RmtsTrain_M | RmtsTrain_T | cache keys and values as functions of the domain | proved |
| C75 | RMTS output derivatives are sensitivities to the training outputs | Index_M, LineSearch_M, Rmtb_M, Rmtc_M, RmtsTrain_M | RmtsTrain_T | linear systems over R; derivative in the training outputs | proved |
| C76 | IDW and RBF output derivatives are exact sensitivities | Idw_M, Rbf_M | Idw_T, Rbf_T | is_derive in each training output | proved |
| C77 | Blockwise evaluation covers every row exactly once | Kernels_M | Kernels_T | list slicing; row ranges partition | proved |
| C78 | Kriging estimates trend and process variance by generalised least squares | Kernels_M, Krg_M, Tri_M | Krg_T | generalised least squares by orthogonality (QR/Cholesky factors computed in the model) | proved |
| C79 | Kriging variance derivatives are derivatives of the kriging variance | Kernels_M, Krg_M, Tri_M | Krg_T | is_derive of quadratic forms; per-kernel derivative | proved |
| C80 | Kriging cannot be trained when no hyperparameter gives a finite likelihood | HyperOpt_M, Krg_M | HyperOpt_T | exact condition; infinite likelihood propagation | proved |
| C81 | The hyperparameter search starts inside the bounds | HyperOpt_M, Krg_M | HyperOpt_T | clipping arithmetic | proved |
| C82 | MOE chooses the smoothing factor with the smallest validation error | Moe_M | Moe_T | first-minimum specification of argmin over the grid | proved |
| C83 | MOE enabled experts | Moe_M | Moe_T | list filter semantics of allow/deny | proved |
| C84 | MFK derivatives | Kernels_M, Krg_M, Mfk_M, Tri_M | Mfk_T | is_derive over the level recursion; error term for linear trends | proved |
| C85 | MFK start parameters | Kernels_M, Krg_M, Mfk_M, Tri_M | Mfk_T | case analysis over lengths, iff | proved |
| C86 | Multigrid solver and solver names | LinSolve_M | LinSolve_T | energy minimisation (Galerkin), heap of stored vectors over call histories | proved |
| C87 | Kriging trends are exactly the polynomials of the declared degree | Krg_M | Trend_T | spans of the trend functions against polynomials given by monomial coefficients | proved |
| C88 | GENN options beta1 and beta2 have no effect | GennOpt_M | GennOpt_T | simulation relation between two runs | proved |
| C89 | GENN optimiser iteration count | GennOpt_M | GennOpt_T | loop invariant on the stall counters | proved |
| C90 | When GENN training succeeds | GennOpt_M, GennTrain_M, Genn_M | GennTrain_T | iff over batch sizes; any generator with permutations | proved |
| C91 | GENN training minimises the declared objective | GennOpt_M, GennTrain_M, Genn_M | GennTrain_T | chain of optimiser runs; gradient by the adjoint argument | proved |
| C92 | What the GENN seed determines | GennOpt_M, GennTrain_M, Genn_M | GennTrain_T | generator as an arbitrary state machine | proved |
| C93 | Loaded GENN parameters predict without scale factors | GennOpt_M, GennTrain_M, Genn_M | GennTrain_T | broadcast/reshape semantics with explicit shapes | proved |
| C94 | GENN normalisation is exact and invertible | GennOpt_M, GennTrain_M, Genn_M | GennTrain_T | finite sums over R and is_derive | proved |
| C95 | The gradient of the likelihood used in training is its derivative | Kernels_M, Krg_M, LikGrad_M, Tri_M | LikGrad_T | differentiability of Cholesky factors and triangular solves by induction; differentiate the saddle-point system R g + F b = y, F'g = 0 and R = CC'; chain rule for log10 | proved |
| C96 | The Hessian of the likelihood is the derivative of its gradient | Kernels_M, Krg_M, LikGrad_M, Tri_M | LikGrad_T | differentiate the closed form of the gradient and the columns of R^-1 dR; cancellation by F'dgamma = 0; counting invariant for the index table | proved |
| C97 | MGP maximises likelihood plus Gaussian log-prior, with exact gradient and Hessian | Kernels_M, Krg_M, LikGrad_M, Mgp_M, Tri_M | Mgp_T | prior as an explicit sum; sum of the derivatives of C95/C96 and of the prior; the two index assignments of the Hessian table hit every entry | proved |
| C98 | MGP: a point of the active subspace and the point it stands for give the same predictions | Kernels_M, Krg_M, LikGrad_M, Mgp_M, Tri_M | Mgp_T | U-space distances equal the projected X-space distances (C nB = theta / scale); QR of C: C'Q R^-T u = u; independence of directions iff the diagonal of R has no zero; uniqueness of symmetric solves | proved |
| C99 | MGP: the sensitivities to the hyperparameters are derivatives of the predictions | Kernels_M, Krg_M, LikGrad_M, Mgp_M, Tri_M | Mgp_T | differentiate the KKT system of the fit; MSE = sigma2 (1 - 2 w.r + w'Rw) at the weights w, stationary in w | proved |
| C100 | MGP's variance: formula, bounds, zeros, failure and behaviour under rescaling | Kernels_M, Krg_M, LikGrad_M, Mgp_M, Tri_M | Mgp_T | unfold; energy identities; par of the rescaled data is the same up to sigma2 a^2; symmetric solve argument instead of uniqueness | proved |
| C101 | Noise estimated from replicates: averaging the replicates loses nothing | Het_M, Kernels_M, Krg_M, Tri_M | Het_T | np.unique as sorted insertion; sums over groups; the equal split of a weight over replicates minimises the noise term, so the reduced best predictor is a best predictor of all observations; sorted enumerations of the same rows agree | proved |
| C102 | Gradient-enhanced Kriging adds the right points, once | Gek_M, Kernels_M, Krg_M, Tri_M | Gek_T | PLS and the design table as parameters; the table of rows by blocks; self.nt as state multiplied at every train(); interpolation of the Kriging model (C35) on the extended training set | proved |
| C103 | The second phase of KPLSK starts from the model of the first | HyperOpt_M, Kernels_M, Kplsk_M, Krg_M, Tri_M | Kplsk_T | both phases as the search of C39 with the two likelihoods; the PLS kernel is the full kernel with summed weights, so the correlation matrices are equal; the first attempt of a phase that does not raise decides | proved |
| C104 | The order of the training points is irrelevant | Kernels_M, Krg_M, Tri_M | Order_T | determinants, Gram matrices and solutions of the reordered systems are shown equal (Schur complements; uniqueness of solutions), although the Cholesky factors differ | proved |
| C105 | Multi-fidelity kriging with estimated noise, and optim_var | Kernels_M, Krg_M, MfkVar_M, Mfk_M | MfkVar_T | train() is a function of the stored data and options to (kept data and options, model); stage two is the C50 model on predicted outputs, so C50 applies; replicated inputs by the grouping lemma of C101; positivity from strictness of the kriging variance away from the data | proved |
| C106 | What training does to the options of the multi-fidelity models | MfkHist_M | MfkHist_T | state machine over the option values (lists, arrays, nesting) with exceptions as transitions; idempotence of the parameter check; a one-dimensional theta0 array is an absorbing state of train() | proved |
| C107 | Kriging with several outputs treats each as if alone | Kernels_M, KrgMulti_M, Krg_M, Tri_M | KrgMulti_T | the several-output likelihood, with matrices, is projected on one column and shown equal to the one-output model of C35; ravel/reshape as list indexing; the objective is reduced to a sum of per-output sigma2 | proved |
| C108 | The order of the input variables is irrelevant | Kernels_M, Krg_M, Tri_M | Inp_T | monomials permuted by the reordering give a permutation of the trend functions; generic fit lemmas with permuted columns give the same gamma, rho and permuted beta; kernels by reordering of sums and products; the refuted variance by an explicit four-point model | proved |
| C109 | What RMTS training minimises | Index_M, Rmtb_M, Rmtc_M, RmtsTrain_M | Energy_T | sparse rows summed over columns give the model's second derivative (differentiating the derivative formula inside an element; quadrature points never fall on knots or element boundaries by parity), element volumes over the total volume give the reciprocal of the number of points, quadratic form of the assembled matrix | proved |
| C110 | Numerically differentiated benchmark problems | CStep_M, Problems_M | CStep_T | expression language with real and complex evaluation; dual-number calculus with remainder for the complex step, mean value theorem for central differences; regularity on the box by interval reasoning | proved |
| C111 | RMTS with several outputs | RmtsMulti_M, RmtsTrain_M | RmtsMulti_T | induction over the outputs; a Newton run is split into what it does to the solution and the matrix it leaves | proved |
| C112 | Change of units for IDW, RBF, QP, LS and RMTS | GennOpt_M, GennTrain_M, Genn_M, Idw_M, Index_M, Poly_M, Rbf_M, Rmtb_M, Rmtc_M, RmtsTrain_M | GennUnits_T, Units_T | uniqueness of the solution of each fit, closure of the trend/polynomial space under affine maps; RMTS: every entry of the Jacobians and of the energy matrix is the same; GENN: the normalized data are equal | proved |
| C113 | EGO with Kriging: where the acquisition vanishes, repeated points, virtual outputs and evaluation budget | EgoEI_M, EgoKrg_M, Ego_M, Kernels_M, Krg_M | EgoKrg_T | Gaussian integral by differentiation under the integral sign gives symmetry of the distribution function; strict positive definiteness of the kernel matrix extended by the query (points with noise replaced by fresh ones); induction over the loop | proved |
| C114 | MFK: order of the points and units | Kernels_M, Krg_M, Mfk_M, Tri_M | MfkUnits_T | pooled standardisation of reordered, rescaled data; each level solves the same generalised least squares problem (uniqueness); induction over the levels | proved |
| C115 | GENN: reading training data from a file and reported goodness of fit | Fit_M | Fit_T | decomposition of squares about the mean; ties-to-even rounding characterised; induction over the label lists | proved |
| C116 | Predictions far from the training data | Kernels_M, Krg_M | Far_T | explicit bounds on the kernel factors (63/l), linearity of triangular solves, and a small calculus of limits uniform in the other inputs | proved |
| C117 | Superposition and reproduction of trend polynomials | Kernels_M, Krg_M | Lin_T | uniqueness of the best linear unbiased weights, of the RBF solution and of the least-squares fit; affine change of variable in polynomials | proved |
| C118 | GENN with full batches: order and seed | GennOpt_M, GennTrain_M, Genn_M | GennOrd_T | gathering of columns commutes with forward and backward passes; sums over reordered examples; two explicit Adam steps for the refutation | proved |
| C119 | Adding data a model already predicts | Idw_M, Kernels_M, Krg_M, Poly_M, Rbf_M | Add_T | Dual form: the Kriging predictor is the only function h + sum a_i k(., x_i) with h in the trend space and a orthogonal to it that fits the data, so extending a by zeros gives the larger model; variances by comparing the best linear unbiased predictors. RBF: zero extension and uniqueness; LS and QP: normal equations. | proved |
| C120 | A batch of query points is predicted point by point | Batch_M, Idw_M, Index_M, Kernels_M, Krg_M, Rbf_M, Rmtb_M, Rmtc_M, Tri_M | Batch_T | The loops over flat C-order buffers, reshapes and block loops of the array code, with arbitrary initial memory; loop invariants show every entry read was written in the same call and row e equals the one-point model (Batch_P, Batch_P2, Batch_P3). | proved |
| C121 | RMTB and RMTC reproduce functions that are affine in each coordinate, and training never does worse than the best of them | Index_M, Rmtb_M, Rmtc_M, RmtsTrain_M | Repro_T | Greville sums of the B-spline recursion and of its derivative by induction on the order; cubic Hermite interpolation of affine functions; tensor products dimension by dimension (Repro_P, P2, P3); training: the quadratic objective is minimal at the result (C72) and its terms are those of C109, the energy of an affine function being zero (Repro_P4). | proved |
| C122 | What one more observation changes in a Kriging model | Kernels_M, Krg_M | One_T | The dual coefficients and the trend of the larger model are written down from the multipliers of the best linear unbiased prediction at the new input and identified by uniqueness (C119); mean squared errors by splitting weights of the larger set into old weights and the new one (One_P, One_P2). | proved |
| C123 | What the solver option does to RMTS training | DirSolve_M, LinSolve_M, LineSearch_M, RmtsTrain_M, Tri_M | DirSolve_T | Newton iterations with the solver called through its array; two runs with exact solvers agree by induction on iterations (the systems are positive definite, so solutions are unique); Cholesky by the triangular-solve lemmas; null and dense-lu by induction; gs by the energy decrease of C55; the witness has a closed form by induction on the iteration count. | proved |
| C124 | Turning, mirroring and moving the input axes | Idw_M, Poly_M, Rbf_M, Rot_M | Rot_T | Distances are kept, so every IDW weight and kernel entry is; the RBF solution in the new axes gives one in the old (trend coefficients turned back) and solutions are unique; LS: both fits are optimal and transfer; QP: quadratics are closed under changes of coordinates, the fit is the orthogonal projection; derivatives by the chain rule for quadratics in any direction. | proved |
| C125 | Predictions are continuous functions of the query point | Idw_M, Krg_M, Moe_M, Poly_M, Rbf_M, Rmtb_M, Rmtc_M | Cont_T | Closure of continuity under arithmetic, products, triangular solves; IDW at a training point: its own weight blows up, so the weighted mean tends to its value; RMTB through the tensor-spline form of C69: the hat functions of order 2 are continuous across each knot, higher orders by the recursion; RMTC: the sum over the corners of one element is a sum over all grid vertices of continuous hat functions, because elements share the values and slopes of their corners. | proved |
| C126 | What an error in the training outputs does to the predictions | Idw_M, Moe_M, Poly_M, Rbf_M | Noise_T | IDW and MOE weights are non-negative and sum to 1; the fitted values of LS and QP are an orthogonal projection of the outputs, which does not expand; the two counterexamples are computed from the linear systems. | proved |

## Assumptions per theorem (from Print Assumptions)

The axioms are those of the standard library: `sig_forall_dec` and `sig_not_dec` (Coq.Reals.ClassicalDedekindReals), `functional_extensionality_dep` (Coq.Logic.FunctionalExtensionality), `classic` (Coq.Logic.Classical_Prop).

* **Closed under the global context** (130 theorems): C01_read_back, C01_rejected_set_is_noop, C02_stored_values_admissible, C02_update_prefix, C02_failed_redeclaration_refuted, C03_accept_iff, C03_listed_values_refuted, C04_independence, C04_clone_copies, C04_deep_copy_refuted, C05_training_data_by_value, C05_update_values_iff, C05_recorded_sizes, C05_sizes_disagree_refuted, C05_negative_kx_refuted, C06_update_derivative_iff, C06_update_derivative_matching, C06_update_derivative_effect, C06_update_derivative_refuted, C06_wrong_size_accepted_refuted, C07_predict_values, C07_predict_variances, C07_predict_values_exact, C07_predict_variances_exact, C07_predict_derivatives, C07_predict_output_derivatives, C07_predict_variance_derivatives, C07_predict_derivatives_no_copy_refuted, C08_check_iff, C08_unfolded_limits, C08_unfolded_dimension, C09_fold_unfold, C09_roundtrip_folded, C09_roundtrip_unfolded, C09_every_row, C10_projection, C10_idempotent, C10_fold_index, C10_single_level_iff, C10_ties_refuted, C11_projection_in_bounds, C11_noninteger_bounds_refuted, C12_scaling_affine, C12_scaling_increasing, C12_random_in_bounds, C13_full_factorial, C13_clip_complete, C14_levels_terminate, C14_levels_greedy, C14_equal_weights_balanced, C14_relative_weights, C14_integer_weights_refuted, C14_weights_array_overwritten, C14_calls_independent, C17_nested, C17_no_exception, C18_bijection, C18_contract_injective, C18_row_major, C21_columns_in_range, C21_shared_vertices, C21_every_dof_used, C30_cross_index_bijective, C33_act_exp_raises, C40_same_shape, C40_other_dimension, C40_array_theta0, C40_rbf_d0, C41_data_consistent, C41_added_points_evaluated, C41_number_of_points, C42_result_iff, C42_reports_failure_iff, C42_last_attempt_refuted, C44_rows_passed, C44_integers_not_rounded, C44_mixed_integer_refuted, C45_split_partition, C45_clusters_partition, C45_cluster_members, C51_accepts_iff, C51_columns_from_second_level, C51_first_two_levels_refuted, C52_transparent, C52_failure_iff, C52_failure_stores_nothing, C52_printer, C52_nothing_stored_recomputes, C52_second_call_hits, C52_no_directory_writes_nothing, C52_no_directory_reads_None_refuted, C52_rbf_matrix_missing_refuted, C52_rmts_complete, C53_depth_exact, C53_balanced, C53_leak_refuted, C53_printer_goes_silent_refuted, C53_times, C53_last_time, C53_inactive_is_quiet, C57_restored_iff, C57_single_block, C57_redirection_lost_refuted, C57_nested_not_silent_refuted, C57_nested_closes_stdout_refuted, C57_silence2_does_not_silence_refuted, C58_call, C60_partition, C60_nonpositive_sizes, C60_seeded_epochs_repeat, C67_sampling_legal, C67_decoding_legal, C68_train_predict_same_points, C68_noninteger_training_refuted, C76_rbf_cached_refuted, C77_every_row_once, C81_noise_start, C83_enabled_experts, C85_noise_accepted_iff, C85_noise_shape, C85_one_number_per_level_refuted, C86_names, C86_iteration_limits, C86_preconditioners, C86_smoother_options_lost, C90_one_point_refuted, C96_indices, C98_options, C113_budget, C113_failures_reevaluate

* **classic, functional_extensionality_dep, sig_forall_dec, sig_not_dec** (238 theorems): C15_columns_permuted, C15_latin_kept, C16_never_worse, C16_incremental_exact, C19_derivative_bases_sum_to_zero, C19_derivative_bases, C20_constants, C23_gradient, C23_hessian, C23_output_sensitivity_of_gradient, C26_interpolates, C26_weighted_mean, C26_between_the_data, C27_derivative_away_from_data, C27_derivative_at_data, C27_order_one_refuted, C27_output_derivatives_are_weights, C28_unique_model, C28_reproduces_affine_data, C28_reproduces_constant_data, C29_derivative_is_partial_derivative, C31_derivative, C32_range, C32_positive_semidefinite, C32_positive_definite, C33_theta_gradient, C33_theta_hessian, C33_input_gradient, C33_abs_exp_kink_refuted, C33_pls_input_gradient, C35_value_at_training_points, C35_interpolates, C35_factorises_with_nugget, C35_factorises_distinct_points, C36_available, C36_derivative_is_partial_derivative, C37_mean_is_best_linear_unbiased, C37_variance_at_training_points, C37_variance_constant_trend, C37_variance_error, C37_linear_trend_refuted, C38_affine_equivariance, C38_likelihood_invariant, C38_constant_input_refuted, C43_nonneg, C43_monotone, C43_expected_improvement, C43_tunneling_bounds, C43_tunneling_penalty, C50_levels, C50_mean_is_best_linear_unbiased, C50_interpolates, C50_value_at_training_points, C50_variance_first_level, C50_variance_recursion, C50_pls_variance, C50_variances_nonneg, C50_zero_at_first_level_points, C50_zero_at_shared_points, C50_third_level_positive, C50_third_level_refuted, C54_midpoint_terminates, C58_values, C58_smooth, C58_lp_norm, C58_cantilever, C58_limits, C58_cantilever_domain, C58_high_order_refuted, C59_ndim_rosenbrock, C59_ndim_cantilever, C59_negative_refuted, C61_jacobian, C61_predicted_derivatives, C62_cost, C62_cost_values, C62_gradient, C62_intermediate_gamma_refuted, C63_activations, C69_derivative_is_partial_derivative, C71_derivative_is_partial_derivative, C72_training_terminates, C76_idw_output_derivatives, C78_generalised_least_squares, C79_derivative_of_kriging_variance, C79_derivative_of_predicted_variance, C79_quadratic_refused, C80_constant_outputs, C84_available_iff, C84_derivative_is_partial_derivative, C84_linear_trend_error, C84_linear_refuted, C91_epoch_is_adam_on_objective, C91_direction_is_gradient, C94_derivatives_consistent, C95_gradient, C95_objective, C95_undefined_iff, C95_same_likelihood, C96_hessian, C96_symmetric, C97_likelihood, C97_gradient, C97_hessian, C97_precision_is_minus_hessian, C98_round_trip, C98_defined_iff, C98_same_prediction, C98_active_subspace, C98_wrong_dimension, C99_mean, C99_mse, C100_undefined_iff_singular, C100_zero_at_training_points, C100_output_scaling, C101_equivalent_to_all_observations, C101_variance_constant_trend, C101_mean_where_no_noise, C101_interpolates_where_observations_agree, C101_inputs_kept, C101_order_irrelevant, C101_trains, C101_noise0_length, C101_outputs_tied, C102_reproduces_derivatives, C102_predictor, C102_trains, C103_second_phase_starts_from_the_first, C103_same_predictions, C103_not_worse, C103_model, C103_result_consistent, C103_noise_restarts, C103_estimated_heteroscedastic_raises, C104_kriging, C104_likelihood, C104_idw, C104_idw_duplicates_refuted, C104_rbf, C105_given_noise, C105_estimated_noise, C105_replicated_inputs, C105_two_stages, C105_keeps_predictions, C105_zero_variance, C105_not_zero_at_own_inputs, C105_zero_variance_refuted, C105_repeated_input_fails, C105_outputs_overwritten, C105_retrain, C105_noise_length, C105_het_noise_length, C107_trains_together, C107_as_if_alone, C107_reproduces, C107_likelihood, C107_units, C107_order_of_outputs, C107_constant_output, C107_proportional_outputs, C108_kriging, C108_variance_linear_refuted, C108_likelihood, C108_idw, C108_rbf, C109_rmtb_objective, C109_rmtc_objective, C110_values, C110_complex_step, C110_central, C110_documented_refuted, C110_domain, C112_idw_outputs, C112_idw_inputs, C112_idw_anisotropic_refuted, C112_rbf_outputs, C112_rbf_shift_refuted, C112_rbf_inputs, C112_qp, C112_ls, C113_ei_zero_iff, C113_ei_bounds, C113_normal_distribution, C113_variance_zero_iff, C113_process_variance_zero_iff, C113_variance_at_data, C113_no_repeats, C113_criteria, C114_order_and_units, C114_units_of_each_level, C116_kriging_reverts_to_the_trend, C116_kriging_constant_trend, C116_kriging_trend_variance, C116_idw_mean, C116_rbf_tail, C116_blind_input_refuted, C117_kriging_trainable, C117_kriging_weights, C117_kriging_superposition, C117_kriging_derivative_superposition, C117_kriging_reproduces_polynomials, C117_idw, C117_rbf, C119_kriging_same_predictions, C119_kriging_variance, C119_kriging_relative_variance, C119_kriging_unchanged_theta_refuted, C119_rbf, C119_idw_refuted, C120_idw, C120_idw_derivatives, C120_alone, C121_rmtb_derivatives, C121_slope_is_derivative, C121_rmtb_linear_extrapolation, C121_rmtb_training, C121_rmtb_quadratic_training, C121_rmtc_training, C121_rmtc_quadratic_training, C122_prediction_update, C122_error_update, C122_process_variance_update, C122_constant_trend, C123_gs_first_iteration, C124_idw, C124_rbf, C124_rbf_scales_refuted, C124_qp, C124_qp_directions, C125_rbf, C125_idw, C125_kriging_value, C125_kriging_variance, C125_moe_smooth, C125_moe_hard_refuted, C126_idw, C126_idw_monotone, C126_rbf_refuted

* **functional_extensionality_dep, sig_forall_dec** (136 theorems): C18_quadrature_midpoints, C18_quadrature_inside, C18_quadrature_distinct, C18_nearest_point, C19_basis_is_cox_de_boor, C19_partition_of_unity, C19_partition_of_unity_all, C19_reads_inside_knot_array, C19_right_end_refuted, C19_clamp_avoids_right_end, C20_value_is_tensor_spline, C20_convex_hull, C20_columns_in_range, C22_element_search, C23_assembled_matrix, C24_weights_ignore_grad_weight, C24_derivatives_entered_first_raise, C24_grad_weight_honoured_refuted, C25_rmtb_inside, C25_rmtb_expansion, C25_rmtc_inside, C25_rmtc_expansion, C30_least_squares, C30_reproduces_quadratics, C31_least_squares, C31_reproduces_affine_data, C39_bounded, C39_attempts, C39_result_consistent, C39_best, C39_best_refuted, C46_probabilities, C46_smooth_value, C46_single_cluster, C46_between_experts, C46_common_value, C46_variance_bounds, C46_hard_is_most_probable, C46_zero_density_refuted, C47_first_minimal_score, C47_single_point_minimal_error, C47_perfect_expert_has_minimal_score, C47_score_blind_refuted, C47_minimal_error_refuted, C48_value_formula, C48_trained_once, C48_reproduces_high_fidelity, C48_reproduces_high_fidelity_derivatives, C49_effect_on_dictionaries, C49_unchanged_iff, C49_second_use_refuted, C49_shared_dictionary_refuted, C54_backtracking_sufficient_decrease, C54_backtracking_terminates, C54_ascent_never_returns_refuted, C54_bracketed_strong_wolfe, C54_bracketed_returns_nothing_refuted, C54_parabola, C54_quadratic_exact, C54_cubic_interpolant, C55_fixed_points_are_solutions, C55_iterations_keep_solutions, C55_dominant_rate, C55_gs_energy, C55_jacobi_refuted, C59_section, C59_repeated_refuted, C69_clamped_value_is_flat, C69_clamped_derivative_refuted, C70_value_is_hermite_interpolant, C70_interpolates_nodal_values, C70_nodal_matrix_invertible, C70_columns_in_range, C72_stationary_is_global_minimum, C74_rmtb_energy_terms, C74_rmtc_energy_terms, C75_output_derivatives_exact, C80_all_infinite_fails, C81_start_in_bounds, C82_heaviside_factor, C83_empty_selection, C86_default_ignores_history, C86_two_levels_keep_solutions, C86_history_matters_refuted, C87_trend_span, C90_data_accepted, C98_components, C102_local_data, C102_coefficients_nonnegative, C102_extra_points, C102_affine_exact, C102_calls, C102_negative_extra_points, C102_missing_derivative, C102_one_input, C102_positions_not_read, C103_zero_coefficient_randomised, C104_qp, C104_ls, C108_ls, C112_ls_training_points, C112_rmts_outputs, C112_rmts_order4_refuted, C112_rmtb_predictions, C112_rmtc_predictions, C112_rmtb_energy, C112_rmtc_energy, C112_rmtb_derivative_data, C112_rmtc_derivative_data, C115_several_responses, C115_several_responses_refuted, C117_qp, C117_ls, C119_ls, C119_qp, C120_rmtb, C120_rmtc, C121_rmtb_values, C121_rmtb_inside, C121_linear_functions, C121_order_one_refuted, C121_rmtc_values, C121_rmtc_derivatives, C121_rmtc_linear_extrapolation, C124_ls_training_points, C124_ls, C125_ls, C125_qp, C125_rmtb, C125_rmtc, C125_rmtc_derivatives, C125_rmtb_order1_refuted, C126_moe_smooth, C126_ls, C126_qp, C126_ls_elsewhere_refuted

* **functional_extensionality_dep, sig_forall_dec, sig_not_dec** (107 theorems): C16_criterion_unique, C28_interpolates, C28_side_conditions, C30_derivative, C32_textbook_formula, C32_pls_formula, C32_unit_at_distance_zero, C32_symmetric, C34_correlation_matrix, C34_symmetric, C37_variance_nonnegative, C43_no_uncertainty, C43_lower_confidence_bound, C48_derivative_rule, C54_cubic_trial, C54_cubic_raises, C54_cubic_on_quadratics, C54_cubic_on_quadratics_refuted, C55_gs_converges, C56_given_points, C56_training_points, C56_other_calls, C56_several_outputs, C56_zero_data, C58_robot_arm, C58_out_of_range, C59_ndim_robot_arm, C61_forward, C61_predicted_values, C62_negative_lambda_refuted, C62_no_derivatives_refuted, C64_line_search_ends, C64_at_most_six_tries, C64_factor_one_refuted, C64_accepted, C64_optimize_ends, C64_optimize, C64_worse_than_start_refuted, C65_fails_exactly, C65_one_point_refuted, C65_square_scaling_refuted, C66_training_data_replaced, C66_predictions, C72_newton_never_increases, C72_quadratic_training_is_exact, C73_training_raises_iff, C73_zero_outputs_refuted, C76_rbf_output_derivatives, C86_default_is_coarsest_approximation, C88_betas_ignored, C88_betas_ignored_failures, C89_stops_exactly, C89_default_never_stops_early, C90_training_data_needed, C90_trains_exactly, C92_same_initial_weights, C92_initial_weights_not_seeded_refuted, C92_second_training_reproducible, C93_loaded_values, C93_trained_values, C93_not_restored_refuted, C94_mean_and_deviation, C94_constant_data, C94_training_data_recovered, C97_prior, C100_formula, C100_lower_bound, C101_one_output, C101_several_outputs_refuted, C104_rmtb, C104_rmtc, C108_qp, C110_documented_inertia_refuted, C111_each_output_as_alone, C111_raises_iff, C111_kept_matrix, C111_order_two_derivatives, C111_order_four_derivatives_refuted, C111_retraining_keeps_matrix, C111_retrained_derivatives_refuted, C112_genn_training, C112_genn_values, C112_genn_derivatives, C112_rmtb_training, C112_rmtc_training, C113_virtual_points, C115_r_squared, C115_report, C115_report_partials, C116_genn_bounded, C118_order_irrelevant, C118_seed_has_no_effect, C118_minibatch_order_refuted, C119_kriging_rescaled, C120_rbf, C120_rbf_derivatives, C120_kriging_values, C120_kriging_variances, C120_kriging_derivatives, C120_variance_derivatives, C123_exact_solvers, C123_choice_is_irrelevant, C123_exact_training_is_optimal, C123_dense_lu_never_trains, C123_null_trains_to_zero, C123_dense_chol_copy, C123_dense_chol_exact_refuted

* **sig_forall_dec** (25 theorems): C30_basis, C30_derivatives_shape, C30_train_fails_iff, C34_pairs_once, C40_kplsk_refuted, C59_accepted, C85_theta_accepted_iff, C85_theta_values, C85_one_theta_per_level_refuted, C86_no_levels_exact, C87_trend_count, C103_estimated_heteroscedastic_refuted, C106_retrain, C106_other_shape, C106_fresh, C106_heteroscedastic, C106_failure_blocks_training, C106_after_failure, C106_left_behind, C106_components, C106_components_refuted, C106_rejected_data, C106_rejected_noise, C115_csv_succeeds, C115_csv_contents

## What is modelled and what is not

Modelled (files cite exact lines in each definition): `utils/options_dictionary.py`; `surrogate_models/surrogate_model.py` (training data, prediction calls, output derivatives); `applications/mixed_integer.py`; `sampling_methods` (scaling, full factorial, LHS optimisation, nested LHS, random); `surrogate_models/{rmts,rmtb,rmtc,idw,rbf,qp,ls,krg,krg_based,kpls,kplsk,gekpls,genn,krg_mgp}.py`; the C++ kernels `rmtb.cpp`, `rmtc.cpp`, `rmts.cpp`/`rmtsclib.pyx`, `idw.cpp`, `rbf.cpp`; `utils/kriging_utils.py`, `utils/linear_solvers.py`, `utils/line_search.py`, `utils/printer.py`, `utils/caching.py`, `utils/silence.py`, `utils/misc.py`; `utils/neural_net/*` except plots; `applications/{ego,moe,vfm,mfk,mfkpls,mfkplsk}.py`; `problems/*` (closed-form, complex-step and central-difference derivatives).

Not modelled: plotting, documentation generation, splitting of CSV text, `examples/`, PLS and GMM fitting (scikit-learn), scipy's optimisers and sparse factorisations (oracles with stated contracts), Cython glue beyond argument passing, pickling format, wall-clock timing, memory layout and performance, floating-point rounding.
