From Coq Require Import Reals Arith Bool List Lia Lra.
From Coquelicot Require Import Coquelicot.
From Verif Require Import RSum Mat Tri_M Kernels_M Kernels_P Krg_M Krg_S Krg_P Krg_P3 Krg_Qr LikGrad_M LikGrad_S Mgp_M Mgp_S Mgp_P1 Mgp_P2 Mgp_P5 Mgp_P6 Mgp_P7 Mgp_P8 Mgp_P9.
Import ListNotations.
Open Scope list_scope.
Open Scope R_scope.

(** C97. What MGP maximises is the reduced likelihood plus a Gaussian log-prior; its gradient and its Hessian are the derivatives
    of that sum, and inv_sigma_R is minus the Hessian, symmetric *)
Theorem C97_prior : forall pm pv nb theta,
  log_prior pm pv nb theta = - (rsum nb (fun j => (theta j - pm) ^ 2) / pv) /\
  (forall k, (k < nb)%nat -> is_partial (log_prior pm pv nb) theta k (log_prior_grad pm pv nb theta k)) /\
  (forall k l, (k < nb)%nat -> (l < nb)%nat -> is_partial (fun th => log_prior_grad pm pv nb th k) theta l (if Nat.eqb l k then log_prior_hess pv nb l else 0)).
Proof. intros pm pv nb theta. split; [apply prior_value|]. split; [intros; apply prior_grad_ok; assumption|intros; apply prior_hess_ok; assumption]. Qed.
Print Assumptions C97_prior.
Theorem C97_likelihood : forall qr rcond condF nx nt nc po pm pv nugget noise X y theta,
  mgp_lik qr rcond condF nx nt nc po pm pv nugget noise X y theta =
  match rl qr rcond condF (GStd ActExp nc) nx nt (n_regr po nx) (Xnorm nt X) (fun i j => fvec po nx (Xnorm nt X i) j) (ynorm nt y) (scale1 nt y) nugget noise (INR nt) theta with
  | Fit v _ => Some (v - rsum (nx * nc) (fun j => (theta j - pm) ^ 2) / pv) | _ => None end.
Proof. intros. unfold mgp_lik. destruct (rl _ _ _ _ _ _ _ _ _ _ _ _ _ _ _); try reflexivity. rewrite prior_value. f_equal. Qed.
Print Assumptions C97_likelihood.
Theorem C97_gradient : forall qr rcond condF nx nt nc po pm pv nugget noise X y,
  qr_contract qr -> rcond_contract rcond -> (1 <= nt)%nat -> (n_regr po nx <= nt)%nat -> data_not_trend nx nt po X y ->
  forall theta k (v : vec -> R), (k < nx * nc)%nat ->
  locally (theta k) (fun t => mgp_lik qr rcond condF nx nt nc po pm pv nugget noise X y (upd theta k t) = Some (v (upd theta k t))) ->
  exists gr, mgp_grad qr rcond condF nx nt nc po pm pv nugget noise X y theta k = Some gr /\ is_partial v theta k gr /\
    mgp_obj qr rcond condF nx nt nc po pm pv nugget noise X y theta = Some (- v theta) /\
    mgp_obj_grad qr rcond condF nx nt nc po pm pv nugget noise X y theta k = Some (- gr).
Proof.
  intros qr rcond condF nx nt nc po pm pv nugget noise X y HQ HR Hn Hp NT theta k v Hk L.
  destruct (mgp_grad_ok qr rcond condF nx nt nc po pm pv nugget noise X y HQ HR Hn Hp NT theta k v Hk L) as (gr & E & D). exists gr. split; [exact E|]. split; [exact D|].
  pose proof (locally_singleton _ _ L) as E0. cbv beta in E0. rewrite LikGrad_P3.upd_self in E0. unfold mgp_obj, mgp_obj_grad. rewrite E, E0. split; reflexivity.
Qed.
Print Assumptions C97_gradient.
Theorem C97_hessian : forall qr rcond condF nx nt nc po pm pv nugget noise X y,
  qr_contract qr -> rcond_contract rcond -> (1 <= nt)%nat -> (n_regr po nx <= nt)%nat -> data_not_trend nx nt po X y ->
  forall theta om eta (v : vec -> R), (om < nx * nc)%nat -> (eta < nx * nc)%nat ->
  locally (theta eta) (fun t => mgp_grad qr rcond condF nx nt nc po pm pv nugget noise X y (upd theta eta t) om = Some (v (upd theta eta t))) ->
  exists h, mgp_hess qr rcond condF nx nt nc po pv nugget noise X y theta om eta = Some h /\ is_partial v theta eta h.
Proof. exact mgp_hess_ok. Qed.
Print Assumptions C97_hessian.
Theorem C97_precision_is_minus_hessian : forall qr rcond condF nx nt nc po pv nugget noise X y theta m,
  qr_contract qr -> rcond_contract rcond -> mgp_train qr rcond condF nx nt nc po pv nugget noise X y theta = Some m ->
  forall a b, (a < nx * nc)%nat -> (b < nx * nc)%nat -> g_isr m a b = g_isr m b a /\
    exists h, mgp_hess qr rcond condF nx nt nc po pv nugget noise X y theta a b = Some h /\ g_isr m a b = - h.
Proof.
  intros qr rcond condF nx nt nc po pv nugget noise X y theta m HQ HR E a b Ha Hb. apply train_iff in E. destruct E as (_ & Hp & _ & v & pr & E & ->). split; [apply (isr_sym qr rcond condF nx nt nc po pv nugget noise X y HQ HR theta Hp a b Ha Hb)|].
  assert (Q : exists h, mgp_hess qr rcond condF nx nt nc po pv nugget noise X y theta a b = Some h) by (unfold mgp_hess, rl_hessian; rewrite E; eexists; reflexivity). destruct Q as (h & Q). exists h. split; [exact Q|].
  cbn [mk g_isr]. rewrite (isr_ok qr rcond condF nx nt nc po pv nugget noise X y HQ HR Hp theta a b Ha Hb), Q. reflexivity.
Qed.
Print Assumptions C97_precision_is_minus_hessian.
Example C97_nonvacuous : qr_contract gs_qr /\ rcond_contract rcond01 /\ data_not_trend 2 2 PConstant X2 y2 /\
  forall pm pv (theta : vec) k, 0 < theta 0%nat + theta 1%nat -> (k < 2)%nat -> exists v : vec -> R,
    locally (theta k) (fun t => mgp_lik gs_qr rcond01 cond0 2 2 1 PConstant pm pv 0 (fun _ => 0) X2 y2 (upd theta k t) = Some (v (upd theta k t))).
Proof.
  split; [exact gs_contract|]. split; [exact rcond01_contract|]. split; [exact not_trend2|]. intros pm pv theta k H Hk.
  exists (fun th => the (mgp_lik gs_qr rcond01 cond0 2 2 1 PConstant pm pv 0 (fun _ => 0) X2 y2 th)). generalize (local2 theta k H Hk). apply filter_imp. intros t Ht.
  destruct (fit2 _ Ht) as (v & pr & E). unfold mgp_lik. rewrite E. reflexivity.
Qed.

(** C98. The embedding: u -> x -> u is the identity; x exists exactly when the directions are independent; predicting at u is predicting at its x;
    with a constant trend nothing outside the active subspace matters *)
Theorem C98_round_trip : forall qr rcond condF nx nt nc po pv nugget noise X y, qr_contract qr -> rcond_contract rcond -> (nc <= nx)%nat ->
  forall theta m, mgp_train qr rcond condF nx nt nc po pv nugget noise X y theta = Some m ->
  forall u x, get_x_from_u m u = Some x -> forall s, (s < nc)%nat -> get_u_from_x m x s = u s.
Proof. intros qr rcond condF nx nt nc po pv nugget noise X y HQ HR Hc theta m E u x. apply (t_round_trip qr rcond condF nx nt nc po pv nugget noise X y HQ theta m E u x Hc). Qed.
Print Assumptions C98_round_trip.
Theorem C98_defined_iff : forall qr rcond condF nx nt nc po pv nugget noise X y, qr_contract qr -> (nc <= nx)%nat ->
  forall theta m, mgp_train qr rcond condF nx nt nc po pv nugget noise X y theta = Some m ->
  forall u, (exists x, get_x_from_u m u = Some x) <-> independent_directions nx nc theta.
Proof. intros qr rcond condF nx nt nc po pv nugget noise X y HQ Hc theta m E u. apply (t_defined_iff qr rcond condF nx nt nc po pv nugget noise X y HQ theta m E u Hc). Qed.
Print Assumptions C98_defined_iff.
Theorem C98_same_prediction : forall qr rcond condF lsolve nx nt nc po pv nugget noise X y, qr_contract qr -> rcond_contract rcond -> lsolve_contract lsolve -> (nc < nx)%nat ->
  forall theta m, mgp_train qr rcond condF nx nt nc po pv nugget noise X y theta = Some m ->
  forall u x, get_x_from_u m u = Some x -> mgp_value m nc u = mgp_value m nx x /\ mgp_variance lsolve m nc u = mgp_variance lsolve m nx x.
Proof.
  intros qr rcond condF lsolve nx nt nc po pv nugget noise X y HQ HR LC Hc theta m E u x Ex. split.
  - apply (t_same_value qr rcond condF nx nt nc po pv nugget noise X y HQ theta m E u x Hc Ex).
  - apply (t_same_variance qr rcond condF lsolve nx nt nc po pv nugget noise X y HQ HR theta m E u x Hc LC Ex).
Qed.
Print Assumptions C98_same_prediction.
Theorem C98_active_subspace : forall qr rcond condF nx nt nc pv nugget noise X y theta m, mgp_train qr rcond condF nx nt nc PConstant pv nugget noise X y theta = Some m ->
  forall x x' : vec, (forall s, (s < nc)%nat -> get_u_from_x m x s = get_u_from_x m x' s) ->
  mgp_value m nx x = mgp_value m nx x' /\ (forall q q', normalise m nx x = Some q -> normalise m nx x' = Some q' -> mgp_mse m q = mgp_mse m q').
Proof.
  intros qr rcond condF nx nt nc pv nugget noise X y theta m E x x' Hu. destruct (t_active qr rcond condF nx nt nc PConstant pv nugget noise X y theta m E x x' eq_refl Hu) as [A B]. split; [exact A|]. intros q q' Eq Eq'.
  apply train_iff in E. destruct E as (_ & _ & _ & v & pr & _ & ->). rewrite norm_x in Eq, Eq'. injection Eq as <-. injection Eq' as <-. exact B.
Qed.
Print Assumptions C98_active_subspace.
Theorem C98_wrong_dimension : forall qr rcond condF lsolve nx nt nc po pv nugget noise X y theta m, mgp_train qr rcond condF nx nt nc po pv nugget noise X y theta = Some m ->
  forall n x, (n <> nx)%nat -> (n <> nc \/ nx <= nc)%nat -> mgp_value m n x = None /\ mgp_variance lsolve m n x = None.
Proof. exact t_bad_dim. Qed.
Print Assumptions C98_wrong_dimension.
(** the option check, and the number of components kept *)
Theorem C98_options : forall act_exp tnc nx nc len n, check_param act_exp tnc nx nc len = Some n <-> act_exp = true /\ tnc = true /\ n = (nc * nx)%nat /\ (len = 1 \/ len = nc * nx)%nat.
Proof. exact check_ok. Qed.
Print Assumptions C98_options.
Theorem C98_components : forall svals, List.Forall (fun s => 0 <= s) svals ->
  (forall k, best_ncomp svals = Some k <-> (1 <= k <= length svals)%nat /\ fold_right Rplus 0 (firstn (k - 1) svals) <= 99 / 100 * fold_right Rplus 0 svals < fold_right Rplus 0 (firstn k svals)) /\
  (best_ncomp svals = None <-> List.Forall (fun s => s = 0) svals).
Proof. exact ncomp_ok. Qed.
Print Assumptions C98_components.
Example C98_nonvacuous : lsolve_contract lsolve_n /\ forall (theta u : vec), 0 < theta 0%nat + theta 1%nat ->
  exists m x, mgp_train gs_qr rcond01 cond0 2 2 1 PConstant 1 0 (fun _ => 0) X2 y2 theta = Some m /\ get_x_from_u m u = Some x.
Proof.
  split; [exact lsolve_n_ok|]. intros theta u H. destruct (train2 1 theta H) as (m & E). exists m.
  destruct (proj2 (C98_defined_iff gs_qr rcond01 cond0 2 2 1 PConstant 1 0 (fun _ => 0) X2 y2 gs_contract ltac:(lia) theta m E u)) as (x & Ex); [|exists x; split; assumption].
  intros b Hb s Hs. assert (s = 0%nat) as -> by lia. pose proof (Hb 0%nat ltac:(lia)) as B0. pose proof (Hb 1%nat ltac:(lia)) as B1. cbn [rsum Nat.mul Nat.add] in B0, B1.
  assert (Q : (theta 0%nat + theta 1%nat) * b 0%nat = 0) by lra. apply Rmult_integral in Q. destruct Q; lra.
Qed.

(** C99. The derivatives with respect to the hyperparameters used in the variance are derivatives of the predictions of the models trained at
    neighbouring hyperparameters: the mean's (in units of the standardised output), for every trend; the MSE's, for a constant trend *)
Theorem C99_mean : forall qr rcond condF nx nt nc po pv nugget noise X y, qr_contract qr -> rcond_contract rcond ->
  forall theta k (m : vec -> mgp), (k < nx * nc)%nat ->
  locally (theta k) (fun t => mgp_train qr rcond condF nx nt nc po pv nugget noise X y (upd theta k t) = Some (m (upd theta k t))) ->
  forall x q, normalise (m theta) nx x = Some q -> is_partial (fun th => the (mgp_value (m th) nx x)) theta k (g_ystd (m theta) * dy_hyper (m theta) q k).
Proof. exact t_mean. Qed.
Print Assumptions C99_mean.
Theorem C99_mse : forall qr rcond condF nx nt nc pv nugget noise X y, qr_contract qr -> rcond_contract rcond ->
  forall theta k (m : vec -> mgp), (k < nx * nc)%nat -> data_not_trend nx nt PConstant X y ->
  locally (theta k) (fun t => mgp_train qr rcond condF nx nt nc PConstant pv nugget noise X y (upd theta k t) = Some (m (upd theta k t))) ->
  forall x q, normalise (m theta) nx x = Some q -> 0 < mgp_mse (m theta) q -> is_partial (fun th => mgp_mse (m th) q) theta k (dmse_hyper (m theta) q k).
Proof. exact t_mse. Qed.
Print Assumptions C99_mse.
Example C99_nonvacuous : forall (theta : vec) k, 0 < theta 0%nat + theta 1%nat -> (k < 2)%nat -> exists m : vec -> mgp,
  locally (theta k) (fun t => mgp_train gs_qr rcond01 cond0 2 2 1 PConstant 1 0 (fun _ => 0) X2 y2 (upd theta k t) = Some (m (upd theta k t))).
Proof.
  intros theta k H Hk. destruct (train2 1 theta H) as (m0 & _).
  exists (fun th => match mgp_train gs_qr rcond01 cond0 2 2 1 PConstant 1 0 (fun _ => 0) X2 y2 th with Some m => m | None => m0 end). generalize (local2 theta k H Hk). apply filter_imp. intros t Ht. destruct (train2 1 _ Ht) as (m & E). rewrite E. reflexivity.
Qed.

(** C100. predict_variances: the marginal formula, never negative, zero at interpolated training points, at least 4/3 of the MSE when
    inv_sigma_R is positive semidefinite, undefined exactly when it is singular *)
Theorem C100_formula : forall lsolve m n x v M, lsolve_contract lsolve -> mgp_variance lsolve m n x = Some (v, M) ->
  exists q a b, normalise m n x = Some q /\ M = mgp_mse m q /\ 0 <= M /\ 0 <= v /\
  (forall i, (i < g_nx m * g_nc m)%nat -> mv (g_nx m * g_nc m) (g_isr m) a i = dy_hyper m q i) /\ (forall i, (i < g_nx m * g_nc m)%nat -> mv (g_nx m * g_nc m) (g_isr m) b i = dmse_hyper m q i) /\
  v = if Req_EM_T M 0 then 0 else Rmax 0 (4 / 3 * M + dot (g_nx m * g_nc m) (dy_hyper m q) a + dot (g_nx m * g_nc m) (dmse_hyper m q) b / (3 * M)).
Proof.
  intros lsolve m n x v M LC E. destruct (t_formula lsolve m n x v M LC E) as (q & a & b & A & B & C & D & F). exists q, a, b. split; [exact A|]. split; [exact B|]. split; [rewrite B; apply mse_nonneg|]. split; [|split; [exact C|split; [exact D|exact F]]].
  rewrite F. destruct (Req_EM_T M 0); [lra|apply Rmax_l].
Qed.
Print Assumptions C100_formula.
Theorem C100_lower_bound : forall lsolve m n x v M, lsolve_contract lsolve -> mgp_variance lsolve m n x = Some (v, M) ->
  (forall z : vec, 0 <= dot (g_nx m * g_nc m) z (mv (g_nx m * g_nc m) (g_isr m) z)) -> 4 / 3 * M <= v /\ M <= v.
Proof. exact t_lower. Qed.
Print Assumptions C100_lower_bound.
Theorem C100_undefined_iff_singular : forall qr rcond condF lsolve nx nt nc po pv nugget noise X y, qr_contract qr -> rcond_contract rcond ->
  forall theta m x, mgp_train qr rcond condF nx nt nc po pv nugget noise X y theta = Some m -> lsolve_contract lsolve ->
  (mgp_variance lsolve m nx x = None <-> singular (nx * nc) (g_isr m)).
Proof. exact t_none_iff. Qed.
Print Assumptions C100_undefined_iff_singular.
Theorem C100_zero_at_training_points : forall qr rcond condF lsolve nx nt nc po pv nugget noise X y, qr_contract qr -> rcond_contract rcond ->
  forall theta m i v M, mgp_train qr rcond condF nx nt nc po pv nugget noise X y theta = Some m -> (i < nt)%nat -> nugget + noise i = 0 ->
  mgp_variance lsolve m nx (X i) = Some (v, M) -> v = 0 /\ M = 0.
Proof.
  intros qr rcond condF lsolve nx nt nc po pv nugget noise X y HQ HR theta m i v M E Hi Hz EV.
  pose proof (t_train_zero qr rcond condF nx nt nc po pv nugget noise X y HQ HR theta m i E Hi Hz) as Z. apply train_iff in E. destruct E as (_ & _ & _ & v0 & pr & _ & ->). unfold mgp_variance in EV. rewrite norm_x in EV. cbv zeta in EV. rewrite Z in EV.
  destruct (lsolve _ _ _) as [s|]; [|discriminate]. destruct (lsolve _ _ _) as [s'|]; [|discriminate]. destruct (Req_EM_T 0 0) as [_|N]; [|exfalso; apply N; reflexivity]. destruct (Rlt_dec 0 0); injection EV as <- <-; split; reflexivity.
Qed.
Print Assumptions C100_zero_at_training_points.
(** rescaling the outputs: the values follow, the MSE is multiplied by the square, but the variance is not: one of its terms keeps its size *)
Theorem C100_output_scaling : forall qr rcond condF lsolve nx nt nc po pv nugget noise X y, qr_contract qr -> rcond_contract rcond -> lsolve_contract lsolve -> data_not_trend nx nt po X y ->
  forall theta m x v M, mgp_train qr rcond condF nx nt nc po pv nugget noise X y theta = Some m -> mgp_variance lsolve m nx x = Some (v, M) ->
  exists K c q sy, normalise m nx x = Some q /\ (forall i, (i < nx * nc)%nat -> mv (nx * nc) (g_isr m) sy i = dy_hyper m q i) /\ c = dot (nx * nc) (dy_hyper m q) sy /\
  (v = if Req_EM_T M 0 then 0 else Rmax 0 (K + c)) /\
  forall a b, 0 < a -> exists m' v', mgp_train qr rcond condF nx nt nc po pv nugget noise X (fun i => a * y i + b) theta = Some m' /\
    mgp_value m' nx x = Some (a * the (mgp_value m nx x) + b) /\ mgp_variance lsolve m' nx x = Some (v', a ^ 2 * M) /\
    (v' = if Req_EM_T M 0 then 0 else Rmax 0 (a ^ 2 * K + c)) /\ (a <> 1 -> 0 < v -> 0 < v' -> (v' = a ^ 2 * v <-> c = 0)).
Proof. exact t_scaling. Qed.
Print Assumptions C100_output_scaling.
Example C100_nonvacuous : lsolve_contract lsolve_n /\ forall (theta x : vec), 0 < theta 0%nat + theta 1%nat -> exists pv m v M, 0 < pv /\
  mgp_train gs_qr rcond01 cond0 2 2 1 PConstant pv 0 (fun _ => 0) X2 y2 theta = Some m /\ mgp_variance lsolve_n m 2 x = Some (v, M) /\
  (forall z : vec, 0 <= dot (g_nx m * g_nc m) z (mv (g_nx m * g_nc m) (g_isr m) z)).
Proof.
  split; [exact lsolve_n_ok|]. intros theta x H. destruct (var2 theta x H) as (pv & m & v & M & P & E & D & EV). exists pv, m, v, M. split; [exact P|]. split; [exact E|]. split; [exact EV|].
  apply train_iff in E. destruct E as (_ & _ & _ & v0 & pr & _ & ->). cbn [mk g_nx g_nc]. apply mpd_psd. exact D.
Qed.
