(** Property C112: expressing the training outputs or the inputs in other units (outputs a y + b, input
    x_k as A_k x_k + B_k) gives the same model in the new units - for the surrogates other than Kriging. *)
From Coq Require Import Reals ZArith Arith Bool List Lia Lra.
From Verif Require Import RSum Mat Idw_M Rbf_M Rbf_S Psd2 Poly_M Index_M Rmtb_M Rmtc_M RmtsTrain_M Units_P Units_P2 Units_P3 Units_P4 Units_P5.
Import ListNotations.
Open Scope list_scope.
Open Scope R_scope.

(** IDW *)
Theorem C112_idw_outputs : forall nx nt p xt yt a b x, (0 < nt)%nat ->
  idw_value nx nt p xt (fun i => a * yt i + b) x = a * idw_value nx nt p xt yt x + b /\
  forall kx, idw_derivative nx nt p xt (fun i => a * yt i + b) kx x = a * idw_derivative nx nt p xt yt kx x.
Proof. exact idw_outputs. Qed.
Print Assumptions C112_idw_outputs.
(** the same factor for every input variable, any shifts *)
Theorem C112_idw_inputs : forall nx nt p xt (s : R) (t : nat -> R), s <> 0 -> forall yt x, (0 < nt)%nat ->
  idw_value nx nt p (fun i k => s * xt i k + t k) yt (fun k => s * x k + t k) = idw_value nx nt p xt yt x /\
  forall kx, idw_derivative nx nt p (fun i k => s * xt i k + t k) yt kx (fun k => s * x k + t k) = / s * idw_derivative nx nt p xt yt kx x.
Proof. exact idw_inputs. Qed.
Print Assumptions C112_idw_inputs.
(** different factors: two training points, doubling the first variable only moves the prediction from 1/2 to 4/5 *)
Theorem C112_idw_anisotropic_refuted :
  let xt := fun i k : nat => if Nat.eqb i k then 1 else 0 in let x := fun _ : nat => 0 in
  idw_value 2 2 2 xt INR x = 1 / 2 /\
  idw_value 2 2 2 (fun i k => (if Nat.eqb k 0 then 2 else 1) * xt i k) INR (fun k => (if Nat.eqb k 0 then 2 else 1) * x k) = 4 / 5.
Proof. exact idw_anisotropic. Qed.
Print Assumptions C112_idw_anisotropic_refuted.

(** RBF: outputs; a shift needs a polynomial trend *)
Theorem C112_rbf_outputs : forall nx nt deg d0 xt reg, (forall k, (k < nx)%nat -> d0 k <> 0) -> 0 <= reg -> (reg = 0 -> distinct nx nt xt) ->
  trend_full_rank nx nt deg xt -> forall yt a b sol sol', (deg = NoPoly -> b = 0) ->
  rbf_solves nx nt deg d0 xt reg yt sol -> rbf_solves nx nt deg d0 xt reg (fun i => a * yt i + b) sol' ->
  forall x, rbf_value nx nt deg d0 xt sol' x = a * rbf_value nx nt deg d0 xt sol x + b /\
    forall kx, (kx < nx)%nat -> rbf_derivative nx nt deg d0 xt sol' kx x = a * rbf_derivative nx nt deg d0 xt sol kx x.
Proof. exact rbf_outputs. Qed.
Print Assumptions C112_rbf_outputs.
Theorem C112_rbf_shift_refuted : exists sol sol',
  rbf_solves 1 1 NoPoly (fun _ => 1) (fun _ _ => 0) 0 (fun _ => 0) sol /\
  rbf_solves 1 1 NoPoly (fun _ => 1) (fun _ _ => 0) 0 (fun _ => 0 + 1) sol' /\
  rbf_value 1 1 NoPoly (fun _ => 1) (fun _ _ => 0) sol (fun _ => 1) = 0 /\
  rbf_value 1 1 NoPoly (fun _ => 1) (fun _ _ => 0) sol' (fun _ => 1) <> 1.
Proof. exact rbf_shift_wrong. Qed.
Print Assumptions C112_rbf_shift_refuted.
(** RBF: inputs, one factor per variable, the scale d0 being given in the new units *)
Theorem C112_rbf_inputs : forall nx nt deg d0 xt reg, (forall k, (k < nx)%nat -> d0 k <> 0) -> 0 <= reg -> (reg = 0 -> distinct nx nt xt) ->
  trend_full_rank nx nt deg xt -> forall A B : nat -> R, (forall k, (k < nx)%nat -> A k <> 0) -> forall yt sol sol',
  rbf_solves nx nt deg d0 xt reg yt sol ->
  rbf_solves nx nt deg (fun k => A k * d0 k) (fun i k => A k * xt i k + B k) reg yt sol' ->
  forall x, rbf_value nx nt deg (fun k => A k * d0 k) (fun i k => A k * xt i k + B k) sol' (fun k => A k * x k + B k) = rbf_value nx nt deg d0 xt sol x /\
    forall kx, (kx < nx)%nat -> rbf_derivative nx nt deg (fun k => A k * d0 k) (fun i k => A k * xt i k + B k) sol' kx (fun k => A k * x k + B k) =
      rbf_derivative nx nt deg d0 xt sol kx x / A kx.
Proof. exact rbf_inputs. Qed.
Print Assumptions C112_rbf_inputs.

(** QP *)
Theorem C112_qp : forall (inv : mat -> mat) dim nt (xt : nat -> vec) (yt A B : vec) (a b : R), (forall k, (k < dim)%nat -> A k <> 0) ->
  (forall i j, (i < qp_napp dim)%nat -> (j < qp_napp dim)%nat -> mm (qp_napp dim)
     (mm nt (tr (fun e => qp_row dim (xt e))) (fun e => qp_row dim (xt e))) (inv (mm nt (tr (fun e => qp_row dim (xt e))) (fun e => qp_row dim (xt e)))) i j = idm i j) ->
  (forall i j, (i < qp_napp dim)%nat -> (j < qp_napp dim)%nat -> mm (qp_napp dim)
     (inv (mm nt (tr (fun e => qp_row dim (fun k => A k * xt e k + B k))) (fun e => qp_row dim (fun k => A k * xt e k + B k))))
     (mm nt (tr (fun e => qp_row dim (fun k => A k * xt e k + B k))) (fun e => qp_row dim (fun k => A k * xt e k + B k))) i j = idm i j) ->
  forall coef coef', qp_train inv dim nt xt yt = Some coef -> qp_train inv dim nt (fun e k => A k * xt e k + B k) (fun e => a * yt e + b) = Some coef' ->
  forall x, qp_value dim coef' (fun k => A k * x k + B k) = a * qp_value dim coef x + b /\
    forall kx, (kx < dim)%nat -> qp_derivative dim coef' kx (fun k => A k * x k + B k) = a * qp_derivative dim coef kx x / A kx.
Proof. exact qp_units. Qed.
Print Assumptions C112_qp.

(** LS: at the training points always, everywhere when the training points determine an affine function *)
Theorem C112_ls_training_points : forall (lstsq : nat -> nat -> mat -> vec -> vec) nx nt (xt : nat -> vec) (yt A B : vec) (a b : R),
  (forall X y k, (k < nx)%nat -> mv nt (tr X) (fun e => mv nx X (lstsq nt nx X y) e - y e) k = 0) -> (0 < nt)%nat -> (forall k, (k < nx)%nat -> A k <> 0) ->
  forall e, (e < nt)%nat ->
  ls_value nx (ls_fit lstsq nx nt (fun e k => A k * xt e k + B k) (fun e => a * yt e + b)) (fun k => A k * xt e k + B k) =
  a * ls_value nx (ls_fit lstsq nx nt xt yt) (xt e) + b.
Proof. exact ls_units_points. Qed.
Print Assumptions C112_ls_training_points.
Theorem C112_ls : forall (lstsq : nat -> nat -> mat -> vec -> vec) nx nt (xt : nat -> vec) (yt A B : vec) (a b : R),
  (forall X y k, (k < nx)%nat -> mv nt (tr X) (fun e => mv nx X (lstsq nt nx X y) e - y e) k = 0) -> (0 < nt)%nat -> (forall k, (k < nx)%nat -> A k <> 0) ->
  (forall a' (b' : vec), (forall i, (i < nt)%nat -> a' + rsum nx (fun k => b' k * xt i k) = 0) -> a' = 0 /\ forall k, (k < nx)%nat -> b' k = 0) ->
  forall x, ls_value nx (ls_fit lstsq nx nt (fun e k => A k * xt e k + B k) (fun e => a * yt e + b)) (fun k => A k * x k + B k) =
    a * ls_value nx (ls_fit lstsq nx nt xt yt) x + b /\
    forall kx, (kx < nx)%nat -> ls_derivative (ls_fit lstsq nx nt (fun e k => A k * xt e k + B k) (fun e => a * yt e + b)) kx (fun k => A k * x k + B k) =
      a * ls_derivative (ls_fit lstsq nx nt xt yt) kx x / A kx.
Proof. exact ls_units. Qed.
Print Assumptions C112_ls.

(** RMTS, outputs: approx_order 2 (the factor a may be anything, a shift is not followed because of the regularization) *)
Theorem C112_rmts_outputs : forall n H blocks (yt : nat -> nat -> R) (a : R) (sol sol' : vec), msym n H -> mpd n H -> (forall b, In b blocks -> 0 <= b_c b) ->
  (forall k, (k < n)%nat -> opt_grad n H blocks 2 yt sol k = 0) -> (forall k, (k < n)%nat -> opt_grad n H blocks 2 (fun kx t => a * yt kx t) sol' k = 0) ->
  forall k, (k < n)%nat -> sol' k = a * sol k.
Proof. exact rmts_outputs. Qed.
Print Assumptions C112_rmts_outputs.
Theorem C112_rmts_order4_refuted : exists (H : mat) blocks (yt : nat -> nat -> R) (sol sol' : vec), msym 1 H /\ mpd 1 H /\ (forall b, In b blocks -> 0 <= b_c b) /\
  (forall k, (k < 1)%nat -> opt_grad 1 H blocks 4 yt sol k = 0) /\ (forall k, (k < 1)%nat -> opt_grad 1 H blocks 4 (fun kx t => 4 * yt kx t) sol' k = 0) /\ sol' 0%nat <> 4 * sol 0%nat.
Proof. exact rmts_order4. Qed.
Print Assumptions C112_rmts_order4_refuted.

(** RMTB, RMTC: with the domain limits in the new units and smoothness_k multiplied by A_k ^ 4, training on the converted
    points goes through exactly the same computation ... *)
Theorem C112_rmtb_training : forall nelems (A B lo up sm : nat -> R), (forall k, (k < length nelems)%nat -> 0 < A k) -> (forall k, (k < length nelems)%nat -> lo k < up k) ->
  forall orders ncps rw ew me c nt xt yt solve search p maxiter tol n, length orders = length nelems ->
  let lo' := fun k => A k * lo k + B k in let up' := fun k => A k * up k + B k in
  rmts_train n (full_hess rw ew me (energy_hess (length nelems) (nquad nelems) (rmtb_energy_row orders ncps nelems lo' up') (fun k => up' k - lo' k)
       (fun k => A k ^ 4 * sm k) (vol_fraction nelems (fun k => up' k - lo' k))))
    [mkB 0 nt (rmtb_jac orders ncps lo' up' 0 (fun t k => A k * xt t k + B k)) c] yt solve search p maxiter tol =
  rmts_train n (full_hess rw ew me (energy_hess (length nelems) (nquad nelems) (rmtb_energy_row orders ncps nelems lo up) (fun k => up k - lo k)
       sm (vol_fraction nelems (fun k => up k - lo k))))
    [mkB 0 nt (rmtb_jac orders ncps lo up 0 xt) c] yt solve search p maxiter tol.
Proof. exact rmtb_train_units. Qed.
Print Assumptions C112_rmtb_training.
Theorem C112_rmtc_training : forall nelems (A B lo up sm : nat -> R), (forall k, (k < length nelems)%nat -> 0 < A k) -> (forall k, (k < length nelems)%nat -> lo k < up k) ->
  (forall k, (k < length nelems)%nat -> (0 < nth k nelems 0)%nat) ->
  forall inv rw ew me c nt xt yt solve search p maxiter tol n,
  let lo' := fun k => A k * lo k + B k in let up' := fun k => A k * up k + B k in
  rmts_train n (full_hess rw ew me (energy_hess (length nelems) (nquad nelems) (fun k => mm (nelem nelems * nterm nelems) (rmtc_energy_row nelems lo' up' k) (dof2coeff_mat nelems inv)) (fun k => up' k - lo' k)
       (fun k => A k ^ 4 * sm k) (vol_fraction nelems (fun k => up' k - lo' k))))
    [mkB 0 nt (rmtc_jac nelems lo' up' inv 0 (fun t k => A k * xt t k + B k)) c] yt solve search p maxiter tol =
  rmts_train n (full_hess rw ew me (energy_hess (length nelems) (nquad nelems) (fun k => mm (nelem nelems * nterm nelems) (rmtc_energy_row nelems lo up k) (dof2coeff_mat nelems inv)) (fun k => up k - lo k)
       sm (vol_fraction nelems (fun k => up k - lo k))))
    [mkB 0 nt (rmtc_jac nelems lo up inv 0 xt) c] yt solve search p maxiter tol.
Proof. exact rmtc_train_units. Qed.
Print Assumptions C112_rmtc_training.
(** ... and predicts the same value and the converted derivatives, inside and outside the domain. *)
Theorem C112_rmtb_predictions : forall orders ncps (A B lo up : nat -> R), (forall k, (k < length orders)%nat -> 0 < A k) -> (forall k, (k < length orders)%nat -> lo k < up k) ->
  forall ext coef x, let cv := fun (v : nat -> R) k => A k * v k + B k in
  rmtb_value orders ncps (cv lo) (cv up) ext coef (cv x) = rmtb_value orders ncps lo up ext coef x /\
  forall kx, (kx < length orders)%nat -> rmtb_derivative orders ncps (cv lo) (cv up) ext coef kx (cv x) = rmtb_derivative orders ncps lo up ext coef kx x / A kx.
Proof. exact rmtb_pred_units. Qed.
Print Assumptions C112_rmtb_predictions.
Theorem C112_rmtc_predictions : forall nelems (A B lo up : nat -> R), (forall k, (k < length nelems)%nat -> 0 < A k) -> (forall k, (k < length nelems)%nat -> lo k < up k) ->
  (forall k, (k < length nelems)%nat -> (0 < nth k nelems 0)%nat) ->
  forall ext inv dof x, let cv := fun (v : nat -> R) k => A k * v k + B k in
  rmtc_value nelems (cv lo) (cv up) ext inv dof (cv x) = rmtc_value nelems lo up ext inv dof x /\
  forall kx, (kx < length nelems)%nat -> rmtc_derivative nelems (cv lo) (cv up) ext inv dof kx (cv x) = rmtc_derivative nelems lo up ext inv dof kx x / A kx.
Proof. exact rmtc_pred_units. Qed.
Print Assumptions C112_rmtc_predictions.
(** With the smoothness left alone, multiplying every input by a divides the energy term by a ^ 4; *)
Theorem C112_rmtb_energy : forall orders ncps nelems a (B lo up sm : nat -> R), length orders = length nelems -> 0 < a -> (forall k, (k < length nelems)%nat -> lo k < up k) ->
  let lo' := fun k => a * lo k + B k in let up' := fun k => a * up k + B k in
  energy_hess (length nelems) (nquad nelems) (rmtb_energy_row orders ncps nelems lo' up') (fun k => up' k - lo' k) sm (vol_fraction nelems (fun k => up' k - lo' k)) =
  fun i j => energy_hess (length nelems) (nquad nelems) (rmtb_energy_row orders ncps nelems lo up) (fun k => up k - lo k) sm (vol_fraction nelems (fun k => up k - lo k)) i j / a ^ 4.
Proof. exact energy_uniform. Qed.
Print Assumptions C112_rmtb_energy.
Theorem C112_rmtc_energy : forall nelems inv a (B lo up sm : nat -> R), 0 < a -> (forall k, (k < length nelems)%nat -> lo k < up k) -> (forall k, (k < length nelems)%nat -> (0 < nth k nelems 0)%nat) ->
  let lo' := fun k => a * lo k + B k in let up' := fun k => a * up k + B k in
  energy_hess (length nelems) (nquad nelems) (fun k => mm (nelem nelems * nterm nelems) (rmtc_energy_row nelems lo' up' k) (dof2coeff_mat nelems inv)) (fun k => up' k - lo' k) sm (vol_fraction nelems (fun k => up' k - lo' k)) =
  fun i j => energy_hess (length nelems) (nquad nelems) (fun k => mm (nelem nelems * nterm nelems) (rmtc_energy_row nelems lo up k) (dof2coeff_mat nelems inv)) (fun k => up k - lo k) sm (vol_fraction nelems (fun k => up k - lo k)) i j / a ^ 4.
Proof. exact energy_uniform_c. Qed.
Print Assumptions C112_rmtc_energy.
(** and residuals of training derivatives (given in the new units) are divided by the factor of their variable. *)
Theorem C112_rmtb_derivative_data : forall (nelems : list nat) (A B lo up : nat -> R), (forall k, (k < length nelems)%nat -> 0 < A k) -> (forall k, (k < length nelems)%nat -> lo k < up k) ->
  forall orders ncps n yt c nt (xt : nat -> nat -> R) k sol t, length orders = length nelems -> (k < length nelems)%nat ->
  let cv := fun (v : nat -> R) k => A k * v k + B k in
  resid n (fun kx i => match kx with O => yt O i | S j => yt (S j) i / A j end) (mkB (S k) nt (rmtb_jac orders ncps (cv lo) (cv up) (S k) (fun t => cv (xt t))) c) sol t =
  resid n yt (mkB (S k) nt (rmtb_jac orders ncps lo up (S k) xt) c) sol t / A k.
Proof. exact (fun nelems A B lo up HA Hb orders ncps n yt c nt xt k sol t L Hk => resid_units_b nelems A B lo up HA Hb orders ncps n yt c nt xt (S k) sol t L Hk). Qed.
Print Assumptions C112_rmtb_derivative_data.
Theorem C112_rmtc_derivative_data : forall (nelems : list nat) (A B lo up : nat -> R), (forall k, (k < length nelems)%nat -> 0 < A k) -> (forall k, (k < length nelems)%nat -> lo k < up k) ->
  (forall k, (k < length nelems)%nat -> (0 < nth k nelems 0)%nat) ->
  forall inv n yt c nt (xt : nat -> nat -> R) k sol t, (k < length nelems)%nat ->
  let cv := fun (v : nat -> R) k => A k * v k + B k in
  resid n (fun kx i => match kx with O => yt O i | S j => yt (S j) i / A j end) (mkB (S k) nt (rmtc_jac nelems (cv lo) (cv up) inv (S k) (fun t => cv (xt t))) c) sol t =
  resid n yt (mkB (S k) nt (rmtc_jac nelems lo up inv (S k) xt) c) sol t / A k.
Proof. exact (fun nelems A B lo up HA Hb He inv n yt c nt xt k sol t Hk => resid_units_c nelems A B lo up HA Hb He inv n yt c nt xt (S k) sol t Hk). Qed.
Print Assumptions C112_rmtc_derivative_data.

(** the hypotheses are met *)
Example C112_nonvacuous : (forall k, (k < length [4%nat; 3%nat])%nat -> 0 < (fun k => INR (S k)) k) /\ (forall k, (k < length [4%nat; 3%nat])%nat -> (fun _ : nat => 0) k < (fun k => INR (S k)) k) /\
  (forall k, (k < length [4%nat; 3%nat])%nat -> (0 < nth k [4; 3] 0)%nat) /\ msym 1 (reg_hess 1).
Proof.
  split; [intros k _; apply lt_0_INR; lia|]. split; [intros k _; apply lt_0_INR; lia|]. split.
  - intros k Hk. cbn [length] in Hk. destruct k as [|[|k]]; [cbn; lia|cbn; lia|lia].
  - intros i j Hi Hj. assert (i = 0 /\ j = 0)%nat as [-> ->] by lia. reflexivity.
Qed.
Example C112_nonvacuous_rmts : (forall k, (k < 1)%nat -> opt_grad 1 (reg_hess 1) [mkB 0 1 (fun _ _ => 1) 1] 2 (fun _ _ => 1) (fun _ => 1 / 2) k = 0) /\
  (forall k, (k < 1)%nat -> opt_grad 1 (reg_hess 1) [mkB 0 1 (fun _ _ => 1) 1] 2 (fun kx t => 3 * (fun _ _ : nat => 1) kx t) (fun _ => 3 / 2) k = 0).
Proof.
  split; intros k Hk; assert (k = 0%nat) as -> by lia; unfold opt_grad, resid, mv, reg_hess, tr; cbn; field.
Qed.
