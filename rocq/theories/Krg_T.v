(** Theorems C34-C38, C78, C79.  [qr_contract gs_qr] and [rcond_contract rcond01] (Krg_Qr.v) show that the
    contracts assumed of numpy's QR and condition number can be met. *)
From Coq Require Import Reals Arith Bool List Lia Lra.
From Verif Require Import RSum Mat Tri_M Kernels_M Krg_M Krg_S Krg_P Krg_P2 Krg_P3 Krg_P6 Krg_P8 Krg_Qr.
Open Scope R_scope.

(** C34. The distance table has n(n-1)/2 rows; each row holds the difference of the two points whose indices
    it stores, in increasing order; every pair occurs in exactly one row ... *)
Theorem C34_pairs_once : forall n X, (0 < n)%nat -> let '(ij, D, rows) := cross_distances n X in
  (2 * rows = n * (n - 1))%nat /\
  (forall p, (p < rows)%nat -> (fst (ij p) < snd (ij p) < n)%nat /\ forall c, D p c = X (fst (ij p)) c - X (snd (ij p)) c) /\
  (forall i j, (i < j < n)%nat -> exists p, (p < rows)%nat /\ ij p = (i, j) /\ forall q, (q < rows)%nat -> ij q = (i, j) -> q = p).
Proof. exact t_pairs. Qed.
Print Assumptions C34_pairs_once.
(** ... and the correlation matrix assembled from it holds the correlation of points i and j at (i, j), and one
    plus nugget and noise on the diagonal; so it is symmetric. *)
Theorem C34_correlation_matrix : forall s nx nt X nugget noise i j, (i < nt)%nat -> (j < nt)%nat ->
  corr_matrix s nx nt X nugget noise i j = if Nat.eqb i j then 1 + nugget + noise i else kf s nx (X i) (X j).
Proof. exact corr_matrix_spec. Qed.
Print Assumptions C34_correlation_matrix.
Theorem C34_symmetric : forall s nx nt X nugget noise i j, (i < nt)%nat -> (j < nt)%nat ->
  corr_matrix s nx nt X nugget noise i j = corr_matrix s nx nt X nugget noise j i.
Proof. exact corr_matrix_sym. Qed.
Print Assumptions C34_symmetric.
Example C34_nonvacuous : snd (cross_distances 4 (fun _ _ => 0)) = 6%nat /\
  map (fst (fst (cross_distances 4 (fun _ _ => 0)))) (seq 0 6) = ((0,1)::(0,2)::(0,3)::(1,2)::(1,3)::(2,3)::nil)%nat.
Proof. split; reflexivity. Qed.

(** C35. At training point i the prediction is the training output minus a multiple of nugget plus noise ... *)
Theorem C35_value_at_training_points : forall qr rcond condF, qr_contract qr -> rcond_contract rcond ->
  forall nx nt po s nugget noise X y m, krg_train qr rcond condF nx nt po s nugget noise X y = Some m ->
  forall i, (i < nt)%nat -> predict_value m (X i) = y i - scale1 nt y * (nugget + noise i) * p_gamma (m_par m) i.
Proof. exact t_interp. Qed.
Print Assumptions C35_value_at_training_points.
Theorem C35_interpolates : forall qr rcond condF, qr_contract qr -> rcond_contract rcond ->
  forall nx nt po s nugget noise X y m, krg_train qr rcond condF nx nt po s nugget noise X y = Some m ->
  forall i, (i < nt)%nat -> nugget + noise i = 0 -> predict_value m (X i) = y i.
Proof. exact t_exact. Qed.
Print Assumptions C35_interpolates.
(** ... and the correlation matrix factorises whenever nugget plus noise is positive, or the points are
    distinct and the hyperparameters positive. *)
Theorem C35_factorises_with_nugget : forall s nx nt X nugget noise, k_ok s nx -> (forall i, (i < nt)%nat -> 0 < nugget + noise i) ->
  exists L, cholesky nt (corr_matrix s nx nt (Xnorm nt X) nugget noise) = Some L.
Proof. exact t_nugget_pd. Qed.
Print Assumptions C35_factorises_with_nugget.
Theorem C35_factorises_distinct_points : forall c theta nx nt X nugget noise, c <> ActExp -> (forall j, (j < nx)%nat -> 0 < theta j) ->
  (forall i j, (i < nt)%nat -> (j < nt)%nat -> i <> j -> ~ (forall k, (k < nx)%nat -> X i k = X j k)) -> (forall i, (i < nt)%nat -> 0 <= nugget + noise i) ->
  exists L, cholesky nt (corr_matrix (KStd c theta) nx nt (Xnorm nt X) nugget noise) = Some L.
Proof. exact t_distinct_pd. Qed.
Print Assumptions C35_factorises_distinct_points.
(** a training that meets all hypotheses: three points, linear trend, no nugget *)
Example C35_nonvacuous : qr_contract gs_qr /\ rcond_contract rcond01 /\
  exists m, krg_train gs_qr rcond01 cond0 1 3 PLinear sw 0 (fun _ => 0) Xw yw = Some m /\ predict_value m (Xw 0%nat) = 1.
Proof.
  split; [exact gs_contract|]. split; [exact rcond01_contract|]. destruct linear_refuted as (m & w & E & _). exists m. split; [exact E|].
  rewrite (t_exact gs_qr rcond01 cond0 gs_contract rcond01_contract _ _ _ _ _ _ _ _ _ E 0%nat); [reflexivity|lia|lra].
Qed.

(** C36. Derivatives are available exactly for the squared exponential kernel and a constant or linear trend,
    and then are the partial derivatives of the predicted value. *)
Theorem C36_available : forall qr rcond condF, qr_contract qr -> rcond_contract rcond ->
  forall nx nt po s nugget noise X y m, krg_train qr rcond condF nx nt po s nugget noise X y = Some m ->
  forall x kx, (exists v, predict_derivative m x kx = Some v) <-> k_corr s = SquarExp /\ po <> PQuadratic.
Proof. exact t_derivative_some. Qed.
Print Assumptions C36_available.
Theorem C36_derivative_is_partial_derivative : forall qr rcond condF, qr_contract qr -> rcond_contract rcond ->
  forall nx nt po s nugget noise X y m, krg_train qr rcond condF nx nt po s nugget noise X y = Some m ->
  forall x kx v, k_ok s nx -> (kx < nx)%nat -> predict_derivative m x kx = Some v -> is_partial (predict_value m) x kx v.
Proof. exact t_derivative. Qed.
Print Assumptions C36_derivative_is_partial_derivative.
Example C36_nonvacuous : k_ok sc1 1 /\ exists m, krg_train gs_qr rcond01 cond0 1 2 PConstant sc1 1 (fun _ => 0) Xc yc = Some m /\
  exists v, predict_derivative m (fun _ => 1) 0 = Some v.
Proof.
  split; [split; [congruence|intros; lra]|]. destruct constant_column_refuted as (m & E & _). exists m. split; [exact E|].
  apply (t_derivative_some gs_qr rcond01 cond0 gs_contract rcond01_contract _ _ _ _ _ _ _ _ _ E). split; [reflexivity|congruence].
Qed.

(** C37. The prediction is the best linear unbiased predictor for every trend ... *)
Theorem C37_mean_is_best_linear_unbiased : forall qr rcond condF, qr_contract qr -> rcond_contract rcond ->
  forall nx nt po s nugget noise X y m, krg_train qr rcond condF nx nt po s nugget noise X y = Some m ->
  forall x, exists w, q_blup nx nt po s nugget noise X x w /\ predict_value m x = dot nt w y.
Proof. exact t_blup. Qed.
Print Assumptions C37_mean_is_best_linear_unbiased.
(** ... the variance is never negative, is zero at training points without nugget and noise ... *)
Theorem C37_variance_nonnegative : forall m x, 0 <= predict_variance m x.
Proof. exact variance_nonneg. Qed.
Print Assumptions C37_variance_nonnegative.
Theorem C37_variance_at_training_points : forall qr rcond condF, qr_contract qr -> rcond_contract rcond ->
  forall nx nt po s nugget noise X y m, krg_train qr rcond condF nx nt po s nugget noise X y = Some m ->
  k_ok s nx -> (forall i, (i < nt)%nat -> 0 <= nugget + noise i) ->
  forall i, (i < nt)%nat -> nugget + noise i = 0 -> predict_variance m (X i) = 0.
Proof. exact t_variance_train. Qed.
Print Assumptions C37_variance_at_training_points.
(** ... and for a constant trend is the process variance times the mean squared error of the predictor ... *)
Theorem C37_variance_constant_trend : forall qr rcond condF, qr_contract qr -> rcond_contract rcond ->
  forall nx nt po s nugget noise X y m, krg_train qr rcond condF nx nt po s nugget noise X y = Some m ->
  k_ok s nx -> (forall i, (i < nt)%nat -> 0 <= nugget + noise i) ->
  forall x w, po = PConstant -> q_blup nx nt po s nugget noise X x w -> predict_variance m x = p_sigma2 (m_par m) * q_mse nx nt s nugget noise X x w.
Proof. exact t_variance_constant. Qed.
Print Assumptions C37_variance_constant_trend.
(** ... for larger trends it differs from it by exactly the difference between dividing by the diagonal of a
    triangular matrix and solving with it ... *)
Theorem C37_variance_error : forall qr rcond condF, qr_contract qr -> rcond_contract rcond ->
  forall nx nt po s nugget noise X y m, krg_train qr rcond condF nx nt po s nugget noise X y = Some m ->
  k_ok s nx -> (forall i, (i < nt)%nat -> 0 <= nugget + noise i) ->
  forall x w, q_blup nx nt po s nugget noise X x w -> exists b G, (forall i j, (i < n_regr po nx)%nat -> (j < i)%nat -> G i j = 0) /\ (forall i, (i < n_regr po nx)%nat -> G i i <> 0) /\
  predict_variance m x - p_sigma2 (m_par m) * q_mse nx nt s nugget noise X x w =
  p_sigma2 (m_par m) * (rsum (n_regr po nx) (fun j => (b j / G j j) ^ 2) - dot (n_regr po nx) (fsub (tr G) b (n_regr po nx)) (fsub (tr G) b (n_regr po nx))).
Proof. exact t_variance_gap. Qed.
Print Assumptions C37_variance_error.
(** ... which is not zero: three points 0, 11, 13 and a linear trend. *)
Theorem C37_linear_trend_refuted : exists nx nt s X y x m w, k_ok s nx /\ krg_train gs_qr rcond01 cond0 nx nt PLinear s 0 (fun _ => 0) X y = Some m /\
  q_blup nx nt PLinear s 0 (fun _ => 0) X x w /\ predict_variance m x <> p_sigma2 (m_par m) * q_mse nx nt s 0 (fun _ => 0) X x w.
Proof.
  destruct linear_refuted as (m & w & E & B & N). exists 1%nat, 3%nat, sw, Xw, yw, (fun _ => 12), m, w. split; [exact k_ok_w|]. split; [exact E|]. split; [apply q_blup_eq; exact B|]. rewrite q_mse_eq. exact N.
Qed.
Print Assumptions C37_linear_trend_refuted.
Example C37_nonvacuous : exists m w, krg_train gs_qr rcond01 cond0 1 2 PConstant sc1 1 (fun _ => 0) Xc yc = Some m /\ q_blup 1 2 PConstant sc1 1 (fun _ => 0) Xc (fun _ => 1) w.
Proof.
  destruct constant_column_refuted as (m & E & _). destruct (t_blup gs_qr rcond01 cond0 gs_contract rcond01_contract _ _ _ _ _ _ _ _ _ E (fun _ => 1)) as (w & B & _). exists m, w. split; assumption.
Qed.

(** C38. Training on inputs A x + B and outputs a y + b (positive A, a), when no input is constant over the
    training set, succeeds whenever training on the original data does, and predicts a p + b where the original
    predicts p, with variance multiplied by a^2 ... *)
Theorem C38_affine_equivariance : forall qr rcond condF, qr_contract qr -> rcond_contract rcond -> cond_ext condF ->
  forall nx nt po s nugget noise X y m (A B : vec) (a b : R), (forall c, (c < nx)%nat -> 0 < A c) -> 0 < a ->
  krg_train qr rcond condF nx nt po s nugget noise X y = Some m -> (forall c, (c < nx)%nat -> exists i j, (i < nt)%nat /\ (j < nt)%nat /\ X i c <> X j c) ->
  exists m', krg_train qr rcond condF nx nt po s nugget noise (fun i c => A c * X i c + B c) (fun i => a * y i + b) = Some m' /\
  (forall x, predict_value m' (fun c => A c * x c + B c) = a * predict_value m x + b) /\
  (k_ok s nx -> (forall i, (i < nt)%nat -> 0 <= nugget + noise i) -> forall x, predict_variance m' (fun c => A c * x c + B c) = a ^ 2 * predict_variance m x).
Proof. exact t_affine. Qed.
Print Assumptions C38_affine_equivariance.
(** ... the likelihood of every theta is unchanged, so the search for theta sees the same function ... *)
Theorem C38_likelihood_invariant : forall qr rcond condF, cond_ext condF ->
  forall nx nt po s nugget noise X y (A B : vec) (a b : R), (forall c, (c < nx)%nat -> 0 < A c) -> 0 < a -> (2 <= nt)%nat ->
  lik (reduced_likelihood qr rcond condF nt (n_regr po nx) (INR nt) (corr_matrix s nx nt (Xnorm nt (fun i c => A c * X i c + B c)) nugget noise) (d_trend nx nt po (fun i c => A c * X i c + B c)) (ynorm nt (fun i => a * y i + b)) (scale1 nt (fun i => a * y i + b))) =
  lik (reduced_likelihood qr rcond condF nt (n_regr po nx) (INR nt) (corr_matrix s nx nt (Xnorm nt X) nugget noise) (d_trend nx nt po X) (ynorm nt y) (scale1 nt y)).
Proof. exact t_likelihood. Qed.
Print Assumptions C38_likelihood_invariant.
(** ... but an input that is constant over the training set is not rescaled: doubling its unit changes the
    variance at a query off the constant. *)
Theorem C38_constant_input_refuted : exists nx nt s nugget X y x m m', k_ok s nx /\
  krg_train gs_qr rcond01 cond0 nx nt PConstant s nugget (fun _ => 0) X y = Some m /\
  krg_train gs_qr rcond01 cond0 nx nt PConstant s nugget (fun _ => 0) (fun i c => 2 * X i c + 0) y = Some m' /\ predict_variance m' (fun c => 2 * x c + 0) <> predict_variance m x.
Proof.
  destruct constant_column_refuted as (m & E & E' & N). exists 1%nat, 2%nat, sc1, 1, Xc, yc, (fun _ => 1), m, m. split; [split; [congruence|intros; lra]|]. split; [exact E|]. split; [exact E'|exact N].
Qed.
Print Assumptions C38_constant_input_refuted.
Example C38_nonvacuous : cond_ext cond0 /\ (exists m, krg_train gs_qr rcond01 cond0 1 3 PLinear sw 0 (fun _ => 0) Xw yw = Some m) /\
  (forall c, (c < 1)%nat -> exists i j, (i < 3)%nat /\ (j < 3)%nat /\ Xw i c <> Xw j c).
Proof.
  split; [intros n p F F' _; reflexivity|]. split; [destruct linear_refuted as (m & w & E & _); exists m; exact E|]. intros c _. exists 0%nat, 1%nat. split; [lia|]. split; [lia|]. unfold Xw. cbn [Nat.eqb]. lra.
Qed.

(** C78. The trend coefficients minimise the generalised least squares residual of the standardised outputs,
    and sigma2 is that minimum divided by the number of points, in output units. *)
Theorem C78_generalised_least_squares : forall qr rcond condF, qr_contract qr -> rcond_contract rcond ->
  forall nx nt po s nugget noise X y m, krg_train qr rcond condF nx nt po s nugget noise X y = Some m ->
  exists v, gls_residual nt (n_regr po nx) (d_corr nx nt s nugget noise X) (d_trend nx nt po X) (ynorm nt y) (p_beta (m_par m)) v /\
  (forall b v', gls_residual nt (n_regr po nx) (d_corr nx nt s nugget noise X) (d_trend nx nt po X) (ynorm nt y) b v' -> v <= v') /\ p_sigma2 (m_par m) = v / INR nt * scale1 nt y ^ 2.
Proof. exact t_sigma2. Qed.
Print Assumptions C78_generalised_least_squares.
Example C78_nonvacuous : exists m, krg_train gs_qr rcond01 cond0 1 3 PLinear sw 0 (fun _ => 0) Xw yw = Some m.
Proof. destruct linear_refuted as (m & w & E & _); exists m; exact E. Qed.

(** C79. For a constant or linear trend the variance derivative is the partial derivative of the kriging
    variance (process variance times mean squared error of the best linear unbiased predictor) wherever the
    kernel is differentiable ... *)
Theorem C79_derivative_of_kriging_variance : forall qr rcond condF, qr_contract qr -> rcond_contract rcond ->
  forall nx nt po s nugget noise X y m, krg_train qr rcond condF nx nt po s nugget noise X y = Some m -> k_ok s nx ->
  forall x kx (w : vec -> vec), (kx < nx)%nat -> po <> PQuadratic -> (k_corr s = AbsExp -> forall i, (i < nt)%nat -> x kx <> X i kx) ->
  (forall z, q_blup nx nt po s nugget noise X z (w z)) ->
  exists v, predict_variance_derivative m x kx = Some v /\ is_partial (fun z => p_sigma2 (m_par m) * q_mse nx nt s nugget noise X z (w z)) x kx v.
Proof. exact t_variance_derivative. Qed.
Print Assumptions C79_derivative_of_kriging_variance.
(** ... so for a constant trend it is the derivative of the predicted variance ... *)
Theorem C79_derivative_of_predicted_variance : forall qr rcond condF, qr_contract qr -> rcond_contract rcond ->
  forall nx nt po s nugget noise X y m, krg_train qr rcond condF nx nt po s nugget noise X y = Some m -> k_ok s nx ->
  (forall i, (i < nt)%nat -> 0 <= nugget + noise i) ->
  forall x kx, (kx < nx)%nat -> po = PConstant -> (k_corr s = AbsExp -> forall i, (i < nt)%nat -> x kx <> X i kx) ->
  exists v, predict_variance_derivative m x kx = Some v /\ is_partial (predict_variance m) x kx v.
Proof. exact t_variance_derivative_constant. Qed.
Print Assumptions C79_derivative_of_predicted_variance.
(** ... with a quadratic trend it is refused. *)
Theorem C79_quadratic_refused : forall qr rcond condF, qr_contract qr -> rcond_contract rcond ->
  forall nx nt po s nugget noise X y m, krg_train qr rcond condF nx nt po s nugget noise X y = Some m ->
  forall x kx, po = PQuadratic -> predict_variance_derivative m x kx = None.
Proof. exact t_variance_derivative_none. Qed.
Print Assumptions C79_quadratic_refused.
Example C79_nonvacuous : exists m w, krg_train gs_qr rcond01 cond0 1 3 PLinear sw 0 (fun _ => 0) Xw yw = Some m /\ k_ok sw 1 /\
  (forall z, q_blup 1 3 PLinear sw 0 (fun _ => 0) Xw z (w z)) /\ (forall i, (i < 3)%nat -> (fun _ : nat => 12) 0%nat <> Xw i 0%nat).
Proof.
  destruct linear_refuted as (m & w0 & E & _). destruct (t_blup_all gs_qr rcond01 cond0 gs_contract rcond01_contract _ _ _ _ _ _ _ _ _ E) as [w B]. exists m, w. split; [exact E|]. split; [exact k_ok_w|]. split; [exact B|].
  intros i Hi. unfold Xw. destruct i as [|[|[|i]]]; cbn [Nat.eqb]; try lra; lia.
Qed.
