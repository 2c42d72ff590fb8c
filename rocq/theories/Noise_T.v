(** C126: what an error in the training outputs does to the predictions. *)
From Coq Require Import Reals Arith Bool List Lia Lra.
From Verif Require Import RSum Mat Idw_M Poly_M Poly_P Poly_P2 Rbf_M Moe_M Moe_S Noise_P.
Import ListNotations.
Open Scope list_scope.
Open Scope R_scope.

(** IDW: an error of at most eps in every output moves no prediction by more than eps ... *)
Theorem C126_idw : forall nx nt p xt yt yt' x eps, (0 < nt)%nat -> (forall i, (i < nt)%nat -> Rabs (yt' i - yt i) <= eps) ->
  Rabs (idw_value nx nt p xt yt' x - idw_value nx nt p xt yt x) <= eps.
Proof. exact idw_noise. Qed.
Print Assumptions C126_idw.
(** ... and larger outputs never give a smaller prediction. *)
Theorem C126_idw_monotone : forall nx nt p xt yt yt' x, (0 < nt)%nat -> (forall i, (i < nt)%nat -> yt i <= yt' i) ->
  idw_value nx nt p xt yt x <= idw_value nx nt p xt yt' x.
Proof. exact idw_monotone. Qed.
Print Assumptions C126_idw_monotone.

(** smooth recombination of experts: errors of the experts *)
Theorem C126_moe_smooth : forall k w rv e e' eps, live k w rv -> (forall j, (j < k)%nat -> Rabs (e' j - e j) <= eps) ->
  Rabs (smooth_value k w rv e' - smooth_value k w rv e) <= eps.
Proof. exact smooth_noise. Qed.
Print Assumptions C126_moe_smooth.

(** LS and QP: summed over the training points, the squares of the errors of the predictions are
    at most those of the outputs *)
Theorem C126_ls : forall lstsq nx nt xt yt yt',
  (forall (X : mat) (y : vec) k, (k < nx)%nat -> mv nt (tr X) (fun e => mv nx X (lstsq nt nx X y) e - y e) k = 0) -> (0 < nt)%nat ->
  rsum nt (fun e => (ls_value nx (ls_fit lstsq nx nt xt yt') (xt e) - ls_value nx (ls_fit lstsq nx nt xt yt) (xt e)) ^ 2) <= rsum nt (fun e => (yt' e - yt e) ^ 2).
Proof. exact ls_noise. Qed.
Print Assumptions C126_ls.
Theorem C126_qp : forall inv dim nt xt yt yt' c c',
  let n := qp_napp dim in let XtX := mm nt (tr (fun e a => qp_row dim (xt e) a)) (fun e a => qp_row dim (xt e) a) in
  (forall i j, (i < n)%nat -> (j < n)%nat -> mm n XtX (inv XtX) i j = idm i j) ->
  qp_train inv dim nt xt yt = Some c -> qp_train inv dim nt xt yt' = Some c' ->
  rsum nt (fun e => (qp_value dim c' (xt e) - qp_value dim c (xt e)) ^ 2) <= rsum nt (fun e => (yt' e - yt e) ^ 2).
Proof. exact qp_noise. Qed.
Print Assumptions C126_qp.

(** away from the training points LS amplifies an error: points 0 and 1, errors -1 and 1, prediction at 2 *)
Theorem C126_ls_elsewhere_refuted : forall lstsq : nat -> nat -> mat -> vec -> vec,
  (forall (X : mat) (y : vec) k, (k < 1)%nat -> mv 2 (tr X) (fun e => mv 1 X (lstsq 2%nat 1%nat X y) e - y e) k = 0) ->
  ls_value 1 (ls_fit lstsq 1 2 (fun i _ => INR i) (fun i => 2 * INR i - 1)) (fun _ => 2) - ls_value 1 (ls_fit lstsq 1 2 (fun i _ => INR i) (fun _ => 0)) (fun _ => 2) = 3.
Proof. exact ls_amplifies. Qed.
Print Assumptions C126_ls_elsewhere_refuted.
(** RBF amplifies an error between the training points: points 0 and 1, errors 1 and 1, prediction at 1/2 *)
Theorem C126_rbf_refuted : forall sol sol', rbf_solves 1 2 NoPoly (fun _ => 1) (fun i _ => INR i) 0 (fun _ => 0) sol -> rbf_solves 1 2 NoPoly (fun _ => 1) (fun i _ => INR i) 0 (fun _ => 1) sol' ->
  1 < rbf_value 1 2 NoPoly (fun _ => 1) (fun i _ => INR i) sol' (fun _ => 1 / 2) - rbf_value 1 2 NoPoly (fun _ => 1) (fun i _ => INR i) sol (fun _ => 1 / 2).
Proof. exact rbf_amplifies. Qed.
Print Assumptions C126_rbf_refuted.

(** the least-squares contract can be met (one input: slope = sum of products over sum of squares), the
    RBF systems above have solutions, and MOE densities as assumed exist *)
Definition slope (nt nx : nat) (X : mat) (y : vec) : vec :=
  fun _ => if Req_EM_T (rsum nt (fun e => X e 0%nat ^ 2)) 0 then 0 else rsum nt (fun e => X e 0%nat * y e) / rsum nt (fun e => X e 0%nat ^ 2).
Example C126_nonvacuous :
  (forall nt (X : mat) (y : vec) k, (k < 1)%nat -> mv nt (tr X) (fun e => mv 1 X (slope nt 1 X y) e - y e) k = 0) /\
  (forall z, exists sol, rbf_solves 1 2 NoPoly (fun _ => 1) (fun i _ => INR i) 0 (fun _ => z) sol) /\
  live 2 (fun _ => 1 / 2) (fun j => INR (S j)).
Proof.
  split; [|split].
  - intros nt X y k Hk. replace k with 0%nat by lia. unfold mv, tr, slope. cbn [rsum].
    destruct (Req_EM_T (rsum nt (fun e => X e 0%nat ^ 2)) 0) as [Z|Z].
    + apply rsum_zero. intros e He. pose proof (rsum_zero_inv nt (fun e => X e 0%nat ^ 2) (fun e _ => pow2_ge_0 _) Z e He) as Q. cbv beta in Q.
      assert (W : X e 0%nat = 0) by nra. rewrite W. ring.
    + set (s := _ / _). rewrite (rsum_ext nt _ (fun e => s * X e 0%nat ^ 2 - X e 0%nat * y e)) by (intros; ring).
      rewrite rsum_minus, rsum_scal_l. unfold s. field. exact Z.
  - intros z. exists (fun _ => z / (1 + exp (-1))). intros i Hi. unfold num_dof, num_poly in Hi. pose proof (exp_pos (-1)) as P.
    assert (E1 : exp (- (0 + ((1 - 0) / 1) ^ 2)) = exp (-1)) by (f_equal; field). assert (E2 : exp (- (0 + ((0 - 1) / 1) ^ 2)) = exp (-1)) by (f_equal; field).
    assert (E3 : exp (- (0 + ((0 - 0) / 1) ^ 2)) = 1) by (transitivity (exp 0); [f_equal; field|exact exp_0]). assert (E4 : exp (- (0 + ((1 - 1) / 1) ^ 2)) = 1) by (transitivity (exp 0); [f_equal; field|exact exp_0]).
    destruct i as [|[|i]]; [| |lia].
    + change (0 + (exp (- (0 + ((0 - 0) / 1) ^ 2)) + 0) * (z / (1 + exp (-1))) + (exp (- (0 + ((1 - 0) / 1) ^ 2)) + 0) * (z / (1 + exp (-1))) = z). rewrite E1, E3. field. lra.
    + change (0 + (exp (- (0 + ((0 - 1) / 1) ^ 2)) + 0) * (z / (1 + exp (-1))) + (exp (- (0 + ((1 - 1) / 1) ^ 2)) + 0) * (z / (1 + exp (-1))) = z). rewrite E2, E4. field. lra.
  - split; [intros j _; pose proof (pos_INR (S j)); lra|exists 0%nat; split; [lia|cbn; lra]].
Qed.
