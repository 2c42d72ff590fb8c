(** Properties C23, C24, C72-C75: training of RMTS models. *)
From Coq Require Import Reals ZArith Arith Bool List Lia Lra.
From Coquelicot Require Import Coquelicot.
From Verif Require Import RSum Mat LineSearch_M Index_M Rmtb_M Rmtc_M RmtsTrain_M RmtsTrain_P RmtsTrain_P2 RmtsTrain_P3 RmtsTrain_P4 RmtsTrain_P5.
Import ListNotations.
Open Scope list_scope.
Open Scope R_scope.

(** C23. Gradient and Hessian of the training objective are its derivatives. *)
Theorem C23_gradient : forall n H blocks p yt sol k, msym n H -> (1 <= p)%nat -> (k < n)%nat ->
  is_partial (opt_func n H blocks p yt) sol k (opt_grad n H blocks p yt sol k).
Proof. exact grad_correct. Qed.
Print Assumptions C23_gradient.
Theorem C23_hessian : forall n H blocks p yt sol i j, (2 <= p)%nat -> (j < n)%nat ->
  is_partial (fun s => opt_grad n H blocks p yt s i) sol j (opt_hess n H blocks p yt sol i j).
Proof. exact hess_correct. Qed.
Print Assumptions C23_hessian.
Theorem C23_output_sensitivity_of_gradient : forall n H blocks p yt sol b k t,
  (2 <= p)%nat -> NoDup (map b_kx blocks) -> In b blocks -> (t < b_nt b)%nat ->
  is_derive (fun s => opt_grad n H blocks p (fun kx' t' => if Nat.eqb kx' (b_kx b) && Nat.eqb t' t then s else yt kx' t') sol k)
    (yt (b_kx b) t) (opt_dgrad_dyt n p yt sol b k t).
Proof. exact dgrad_dyt_correct. Qed.
Print Assumptions C23_output_sensitivity_of_gradient.
(** the matrix the code assembles is symmetric (hypothesis of C23_gradient) and positive definite *)
Theorem C23_assembled_matrix : forall n nx nq D width smoothness volfrac reg_w energy_w min_energy,
  0 < reg_w -> 0 <= energy_w -> 0 <= volfrac -> (forall k, (k < nx)%nat -> width k <> 0) -> (forall k, (k < nx)%nat -> 0 <= smoothness k) ->
  let H := full_hess reg_w energy_w min_energy (energy_hess nx nq D width smoothness volfrac) in
  msym n H /\ (forall x, (exists i, (i < n)%nat /\ x i <> 0) -> 0 < rsum n (fun i => x i * rsum n (fun j => H i j * x j))).
Proof.
  exact (fun n nx nq D width sm vf rw ew me Hr He Hv Hw Hs =>
    conj (full_hess_sym n rw ew me _ (energy_sym n nx nq D width sm vf)) (full_hess_pd n rw ew me _ Hr He (energy_psd n nx nq D width sm vf Hw Hs Hv))).
Qed.
Print Assumptions C23_assembled_matrix.
Example C23_nonvacuous : msym 2 (full_hess 1 1 true (energy_hess 1 1 (fun _ _ j => INR j) (fun _ => 1) (fun _ => 1) 1)).
Proof. exact (full_hess_sym 2 1 1 true _ (energy_sym 2 1 1 _ _ _ _)). Qed.

(** C24. The weights stored with the training terms are 1 for every key, whatever grad_weight (the
    factor is computed and dropped); without the values entered first the training stops. *)
Theorem C24_weights_ignore_grad_weight : forall grad_weight nx keys,
  approx_weights grad_weight nx None (0%nat :: keys) = Some (map (fun kx => (kx, 1)) (0%nat :: keys)).
Proof. exact (fun gw nx keys => weights_zero_first gw nx keys). Qed.
Print Assumptions C24_weights_ignore_grad_weight.
Theorem C24_derivatives_entered_first_raise : forall grad_weight nx kx keys, kx <> 0%nat ->
  approx_weights grad_weight nx None (kx :: keys) = None.
Proof. exact (fun gw nx kx keys => weights_none gw nx keys kx). Qed.
Print Assumptions C24_derivatives_entered_first_raise.
Theorem C24_grad_weight_honoured_refuted :
  ~ (forall grad_weight nx, approx_weights grad_weight nx None [0%nat; 1%nat] = Some [(0%nat, 1); (1%nat, grad_weight / nx)]).
Proof. exact weights_refuted. Qed.
Print Assumptions C24_grad_weight_honoured_refuted.

(** C72. With an even approximation order a point where the gradient vanishes is the strict global
    minimum of the training objective; ... *)
Theorem C72_stationary_is_global_minimum : forall n H blocks p yt, msym n H -> mpd n H -> (2 <= p)%nat -> Nat.even p = true ->
  (forall b, In b blocks -> 0 <= b_c b) ->
  forall sol, (forall k, (k < n)%nat -> opt_grad n H blocks p yt sol k = 0) ->
  forall sol', (exists i, (i < n)%nat /\ sol' i <> sol i) -> opt_func n H blocks p yt sol < opt_func n H blocks p yt sol'.
Proof. exact stationary_min. Qed.
Print Assumptions C72_stationary_is_global_minimum.
(** ... Newton iterations with backtracking never increase the objective, ... *)
Theorem C72_newton_never_increases : forall n H blocks yt solve, msym n H -> mpd n H -> (forall b, In b blocks -> 0 <= b_c b) ->
  (forall M r, msym n M -> mpd n M -> forall k, (k < n)%nat -> mv n M (solve M r) k = r k) ->
  forall p tol bf, (2 <= p)%nat -> Nat.even p = true -> forall maxiter sol mtx sol' mtx',
  newton n H blocks yt solve (backtracking_search n bf) p tol maxiter (sol, mtx) = Some (sol', mtx') ->
  opt_func n H blocks p yt sol' <= opt_func n H blocks p yt sol.
Proof. exact newton_monotone. Qed.
Print Assumptions C72_newton_never_increases.
(** ... every line search of a training run ends, ... *)
Theorem C72_training_terminates : forall n H blocks yt solve, msym n H -> mpd n H -> (forall b, In b blocks -> 0 <= b_c b) ->
  (forall M r, msym n M -> mpd n M -> forall k, (k < n)%nat -> mv n M (solve M r) k = r k) ->
  forall p maxiter tol, 0 <= tol -> (2 <= p)%nat -> Nat.even p = true ->
  exists N, forall bf, (N <= bf)%nat -> rmts_train n H blocks yt solve (backtracking_search n bf) p maxiter tol <> NoLineSearchResult.
Proof. exact train_terminates. Qed.
Print Assumptions C72_training_terminates.
(** ... and for approximation order 2 training ends at that minimum, however small nonlinear_maxiter is. *)
Theorem C72_quadratic_training_is_exact : forall n H blocks yt solve, msym n H -> mpd n H -> (forall b, In b blocks -> 0 <= b_c b) ->
  (forall M r, msym n M -> mpd n M -> forall k, (k < n)%nat -> mv n M (solve M r) k = r k) ->
  forall bf maxiter tol, (1 <= bf)%nat -> 0 <= tol -> tol < opt_norm n H blocks 2 yt (fun _ => 0) ->
  exists sol mtx, rmts_train n H blocks yt solve (backtracking_search n bf) 2 maxiter tol = Trained sol mtx /\
    (forall sol', (exists i, (i < n)%nat /\ sol' i <> sol i) -> opt_func n H blocks 2 yt sol < opt_func n H blocks 2 yt sol').
Proof. exact quadratic_training_min. Qed.
Print Assumptions C72_quadratic_training_is_exact.
Example C72_nonvacuous : exists (solve : mat -> vec -> vec), (forall M r, msym 1 M -> mpd 1 M -> forall k, (k < 1)%nat -> mv 1 M (solve M r) k = r k) /\
  msym 1 (reg_hess 1) /\ mpd 1 (reg_hess 1) /\
  0 < opt_norm 1 (reg_hess 1) [mkB 0 1 (fun _ _ => 1) 1] 2 (fun _ _ => 1) (fun _ => 0).
Proof. exact nonvac72. Qed.

(** C73. Training raises (AttributeError: no matrix was ever stored) exactly when the zero solution already
    meets the tolerance; in particular for outputs that are all zero. *)
Theorem C73_training_raises_iff : forall n H blocks yt solve search p maxiter tol,
  rmts_train n H blocks yt solve search p maxiter tol = AttributeError <->
  opt_norm n H blocks 2 yt (fun _ => 0) <= tol /\ (maxiter = 0%nat \/ opt_norm n H blocks p yt (fun _ => 0) <= tol).
Proof. exact attribute_error_iff. Qed.
Print Assumptions C73_training_raises_iff.
Theorem C73_zero_outputs_refuted : forall n H blocks yt solve search p maxiter tol, (2 <= p)%nat -> 0 <= tol ->
  (forall b t, In b blocks -> (t < b_nt b)%nat -> yt (b_kx b) t = 0) ->
  rmts_train n H blocks yt solve search p maxiter tol = AttributeError.
Proof. exact zero_outputs_error. Qed.
Print Assumptions C73_zero_outputs_refuted.

(** C74. The energy matrices that are cached under a key without the domain limits do not depend on them. *)
Theorem C74_rmtb_energy_terms : forall orders ncps nelems lo up lo' up',
  (forall k, (k < length orders)%nat -> lo k < up k) -> (forall k, (k < length orders)%nat -> lo' k < up' k) ->
  forall nq kx i j, (kx < length orders)%nat ->
  sq_mtx nq (rmtb_energy_row orders ncps nelems lo up) (fun k => up k - lo k) kx i j =
  sq_mtx nq (rmtb_energy_row orders ncps nelems lo' up') (fun k => up' k - lo' k) kx i j.
Proof. exact rmtb_cache. Qed.
Print Assumptions C74_rmtb_energy_terms.
Theorem C74_rmtc_energy_terms : forall nelems lo up lo' up', (forall k, (k < length nelems)%nat -> (0 < nth k nelems 0)%nat) ->
  (forall k, (k < length nelems)%nat -> lo k < up k) -> (forall k, (k < length nelems)%nat -> lo' k < up' k) ->
  forall nc (dof2coeff : mat) nq kx i j, (kx < length nelems)%nat ->
  sq_mtx nq (fun k => mm nc (rmtc_energy_row nelems lo up k) dof2coeff) (fun k => up k - lo k) kx i j =
  sq_mtx nq (fun k => mm nc (rmtc_energy_row nelems lo' up' k) dof2coeff) (fun k => up' k - lo' k) kx i j.
Proof. exact rmtc_cache. Qed.
Print Assumptions C74_rmtc_energy_terms.
Example C74_nonvacuous : forall k, (k < length [4%nat; 4%nat])%nat -> (fun _ : nat => 0) k < (fun k : nat => INR (S k)) k.
Proof. exact (fun k _ => lt_0_INR (S k) (Nat.lt_0_succ k)). Qed.

(** C75. Order 2: the predicted derivatives with respect to the training outputs are exact - retraining on
    changed outputs moves the prediction by them, whatever the size of the change.  [dy] is the
    row of the prediction matrix. *)
Theorem C75_output_derivatives_exact : forall n H blocks yt solve, msym n H -> mpd n H -> (forall b, In b blocks -> 0 <= b_c b) ->
  (forall M r, msym n M -> mpd n M -> forall k, (k < n)%nat -> mv n M (solve M r) k = r k) ->
  forall yt' sol sol' sol0 dy,
  (forall k, (k < n)%nat -> opt_grad n H blocks 2 yt sol k = 0) -> (forall k, (k < n)%nat -> opt_grad n H blocks 2 yt' sol' k = 0) ->
  rsum n (fun j => dy j * sol' j) - rsum n (fun j => dy j * sol j) =
  lsum (fun b => rsum (b_nt b) (fun t =>
     output_derivative n solve (opt_hess n H blocks 2 yt sol0) blocks 2 yt sol b dy t * (yt' (b_kx b) t - yt (b_kx b) t))) blocks.
Proof. exact sensitivity. Qed.
Print Assumptions C75_output_derivatives_exact.
Example C75_nonvacuous : forall k, (k < 1)%nat -> opt_grad 1 (reg_hess 1) [mkB 0 1 (fun _ _ => 1) 1] 2 (fun _ _ => 1) (fun _ => 1 / 2) k = 0.
Proof. exact nonvac75. Qed.
