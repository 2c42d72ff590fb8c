(** Property C104: the order of the training points is irrelevant. *)
From Coq Require Import Reals Arith Bool List Lia Lra.
From Verif Require Import RSum Mat Tri_M Tri_P Kernels_M Krg_M Krg_S Krg_P Krg_P2 Krg_P3 Krg_Qr Het_S Order_S Order_P4 Order_P6 LikGrad_T.
From Verif Require Idw_M Idw_P Rbf_M Rbf_S Poly_M Psd2 Order_P5 RmtsTrain_M RmtsMulti_M RmtsOrder_P.
Import ListNotations.
Open Scope list_scope.
Open Scope R_scope.
(** Kriging (all kernels, also with PLS directions, all trends, with nugget and one noise value per point): if training succeeds
    it succeeds on the points in any other order, and the two models predict the same values, variances and derivatives *)
Theorem C104_kriging : forall qr rcond condF nx nt po s nugget noise X y f m, qr_contract qr -> rcond_contract rcond -> rcond_gram rcond -> cond_rows condF -> reorder nt f ->
  krg_train qr rcond condF nx nt po s nugget noise X y = Some m ->
  exists m', krg_train qr rcond condF nx nt po s nugget (fun i => noise (f i)) (fun i => X (f i)) (fun i => y (f i)) = Some m' /\
    p_sigma2 (m_par m') = p_sigma2 (m_par m) /\
    forall x, predict_value m' x = predict_value m x /\ predict_variance m' x = predict_variance m x /\
      forall kx, predict_derivative m' x kx = predict_derivative m x kx /\ predict_variance_derivative m' x kx = predict_variance_derivative m x kx.
Proof. exact t_order. Qed.
Print Assumptions C104_kriging.
(** so the objective of the hyperparameter search is the same function, with the same failures *)
Theorem C104_likelihood : forall nx nt po s nugget noise X y f, reorder nt f -> forall qr rcond condF, qr_contract qr -> rcond_contract rcond -> rcond_gram rcond -> cond_rows condF ->
  forall dof, (n_regr po nx <= nt)%nat -> same_outcome (n_regr po nx)
  (reduced_likelihood qr rcond condF nt (n_regr po nx) dof (corr_matrix s nx nt (Xnorm nt X) nugget noise) (fun i j => fvec po nx (Xnorm nt X i) j) (ynorm nt y) (scale1 nt y))
  (reduced_likelihood qr rcond condF nt (n_regr po nx) dof (corr_matrix s nx nt (Xnorm nt (fun i => X (f i))) nugget (fun i => noise (f i))) (fun i j => fvec po nx (Xnorm nt (fun i => X (f i)) i) j)
     (ynorm nt (fun i => y (f i))) (scale1 nt (fun i => y (f i)))).
Proof. exact k_outcome. Qed.
Print Assumptions C104_likelihood.
(** the linear-algebra routines of Krg_Qr.v meet the hypotheses; a model with two points trains *)
Example C104_nonvacuous : qr_contract gs_qr /\ rcond_contract rcond01 /\ rcond_gram rcond01 /\ cond_rows cond0 /\ reorder 2 (fun i => (1 - i)%nat) /\
  exists m, krg_train gs_qr rcond01 cond0 1 2 PConstant (KStd SquarExp (fun _ => 1)) 0 (fun _ => 0) X1 y1 = Some m.
Proof.
  split; [exact gs_contract|]. split; [exact rcond01_contract|]. split; [exact rcond01_gram|]. split; [exact cond0_rows|]. split; [split; intros; lia|].
  assert (Dx : forall i j, (i < 2)%nat -> (j < 2)%nat -> i <> j -> ~ (forall k, (k < 1)%nat -> X1 i k = X1 j k)) by (intros i j _ _ N E; apply N; apply INR_eq; exact (E 0%nat ltac:(lia))).
  apply train_gs; [lia|cbn; lia| |apply constant_regular; lia]. apply corr_matrix_pd_distinct; [congruence| |apply Xnorm_distinct; exact Dx|intros; lra]. intros j Hj. lra.
Qed.
(** IDW: derivatives everywhere, values wherever the points at the query have one output; ... *)
Theorem C104_idw : forall nx nt p xt yt f x, reorder nt f ->
  (forall kx, Idw_M.idw_derivative nx nt p (fun i => xt (f i)) (fun i => yt (f i)) kx x = Idw_M.idw_derivative nx nt p xt yt kx x) /\
  ((forall i j, (i < nt)%nat -> (j < nt)%nat -> (forall k, (k < nx)%nat -> xt i k = x k) -> (forall k, (k < nx)%nat -> xt j k = x k) -> yt i = yt j) ->
   Idw_M.idw_value nx nt p (fun i => xt (f i)) (fun i => yt (f i)) x = Idw_M.idw_value nx nt p xt yt x).
Proof. intros nx nt p xt yt f x RO. split; [intros kx; apply Order_P5.idw_deriv_reorder; exact RO|apply Order_P5.idw_reorder; exact RO]. Qed.
Print Assumptions C104_idw.
(** ... with two different outputs at one input the one given first wins *)
Theorem C104_idw_duplicates_refuted : forall p, let xt := fun _ _ : nat => 0 in
  Idw_M.idw_value 1 2 p xt INR (fun _ => 0) = 0 /\ Idw_M.idw_value 1 2 p (fun i => xt (1 - i)%nat) (fun i => INR (1 - i)) (fun _ => 0) = 1.
Proof.
  intros p xt. split.
  - apply (Order_P5.idw_duplicates 1 2 p xt INR 0); [lia|reflexivity|intros j Hj; lia].
  - apply (Order_P5.idw_duplicates 1 2 p (fun i => xt (1 - i)%nat) (fun i => INR (1 - i)) 0); [lia|reflexivity|intros j Hj; lia].
Qed.
Print Assumptions C104_idw_duplicates_refuted.
(** RBF: whatever solutions of the two linear systems the solvers return *)
Theorem C104_rbf : forall nx nt deg d0 xt reg f, reorder nt f -> forall yt sol sol', (forall k, (k < nx)%nat -> d0 k <> 0) -> 0 <= reg -> (reg = 0 -> Psd2.distinct nx nt xt) -> Rbf_S.trend_full_rank nx nt deg xt ->
  Rbf_M.rbf_solves nx nt deg d0 xt reg yt sol -> Rbf_M.rbf_solves nx nt deg d0 (fun i => xt (f i)) reg (fun i => yt (f i)) sol' ->
  forall x, Rbf_M.rbf_value nx nt deg d0 (fun i => xt (f i)) sol' x = Rbf_M.rbf_value nx nt deg d0 xt sol x /\
    forall kx, Rbf_M.rbf_derivative nx nt deg d0 (fun i => xt (f i)) sol' kx x = Rbf_M.rbf_derivative nx nt deg d0 xt sol kx x.
Proof. exact Order_P5.rbf_reorder. Qed.
Print Assumptions C104_rbf.
(** QP: the same coefficients *)
Theorem C104_qp : forall inv dim nt xt yt f, reorder nt f -> Poly_M.qp_train inv dim nt (fun i => xt (f i)) (fun i => yt (f i)) = Poly_M.qp_train inv dim nt xt yt.
Proof. exact Order_P5.qp_reorder. Qed.
Print Assumptions C104_qp.
(** LS: the same values at the training points, and everywhere if these are not all in one hyperplane *)
Theorem C104_ls : forall lstsq nx nt xt yt f, (forall (X : mat) (y : vec) k, (k < nx)%nat -> mv nt (tr X) (fun e => mv nx X (lstsq nt nx X y) e - y e) k = 0) -> (0 < nt)%nat -> reorder nt f ->
  let m := Poly_M.ls_fit lstsq nx nt xt yt in let m' := Poly_M.ls_fit lstsq nx nt (fun i => xt (f i)) (fun i => yt (f i)) in
  (forall e, (e < nt)%nat -> Poly_M.ls_value nx m' (xt e) = Poly_M.ls_value nx m (xt e)) /\
  ((forall a' (b' : vec), (forall i, (i < nt)%nat -> a' + rsum nx (fun k => b' k * xt i k) = 0) -> a' = 0 /\ forall k, (k < nx)%nat -> b' k = 0) ->
   forall x, Poly_M.ls_value nx m' x = Poly_M.ls_value nx m x).
Proof. intros lstsq nx nt xt yt f L P RO m m'. split; [exact (Order_P5.ls_train_reorder lstsq nx nt xt yt f L P RO)|exact (Order_P5.ls_reorder lstsq nx nt xt yt f L P RO)]. Qed.
Print Assumptions C104_ls.
(** RMTB and RMTC, all outputs: with the points of every kind (values, derivatives in each variable) in another order, training does
    exactly the same - same coefficients, same stored matrix, same failure - and the sensitivities to the outputs are listed in the new order. *)
Theorem C104_rmtb : forall orders ncps lo up n H solve search p maxiter tol mtx (kinds : list (nat * R)) (nt : nat -> nat) (xt : nat -> nat -> vec) (yts : list (nat -> nat -> R)) (f : nat -> nat -> nat),
  (forall kx c, In (kx, c) kinds -> reorder (nt kx) (f kx)) ->
  let blocks := map (fun kc : nat * R => RmtsTrain_M.mkB (fst kc) (nt (fst kc)) (RmtsTrain_M.rmtb_jac orders ncps lo up (fst kc) (xt (fst kc))) (snd kc)) kinds in
  let blocks' := map (fun kc : nat * R => RmtsTrain_M.mkB (fst kc) (nt (fst kc)) (RmtsTrain_M.rmtb_jac orders ncps lo up (fst kc) (fun t => xt (fst kc) (f (fst kc) t))) (snd kc)) kinds in
  let yts' := map (fun (yt : nat -> nat -> R) kx t => yt kx (f kx t)) yts in
  RmtsMulti_M.train_all n H blocks' solve search p maxiter tol yts' mtx = RmtsMulti_M.train_all n H blocks solve search p maxiter tol yts mtx /\
  forall dsolve mtx sols iy i dy t, (i < length kinds)%nat ->
    RmtsMulti_M.output_derivative_all n blocks' dsolve mtx p yts' sols iy (nth i blocks' (RmtsTrain_M.mkB 0 0 (fun _ _ => 0) 0)) dy t =
    RmtsMulti_M.output_derivative_all n blocks dsolve mtx p yts sols iy (nth i blocks (RmtsTrain_M.mkB 0 0 (fun _ _ => 0) 0)) dy (f (fst (nth i kinds (0%nat, 0))) t).
Proof. exact RmtsOrder_P.rmtb_order. Qed.
Print Assumptions C104_rmtb.
Theorem C104_rmtc : forall nelems lo up inv n H solve search p maxiter tol mtx (kinds : list (nat * R)) (nt : nat -> nat) (xt : nat -> nat -> vec) (yts : list (nat -> nat -> R)) (f : nat -> nat -> nat),
  (forall kx c, In (kx, c) kinds -> reorder (nt kx) (f kx)) ->
  let blocks := map (fun kc : nat * R => RmtsTrain_M.mkB (fst kc) (nt (fst kc)) (RmtsTrain_M.rmtc_jac nelems lo up inv (fst kc) (xt (fst kc))) (snd kc)) kinds in
  let blocks' := map (fun kc : nat * R => RmtsTrain_M.mkB (fst kc) (nt (fst kc)) (RmtsTrain_M.rmtc_jac nelems lo up inv (fst kc) (fun t => xt (fst kc) (f (fst kc) t))) (snd kc)) kinds in
  let yts' := map (fun (yt : nat -> nat -> R) kx t => yt kx (f kx t)) yts in
  RmtsMulti_M.train_all n H blocks' solve search p maxiter tol yts' mtx = RmtsMulti_M.train_all n H blocks solve search p maxiter tol yts mtx /\
  forall dsolve mtx sols iy i dy t, (i < length kinds)%nat ->
    RmtsMulti_M.output_derivative_all n blocks' dsolve mtx p yts' sols iy (nth i blocks' (RmtsTrain_M.mkB 0 0 (fun _ _ => 0) 0)) dy t =
    RmtsMulti_M.output_derivative_all n blocks dsolve mtx p yts sols iy (nth i blocks (RmtsTrain_M.mkB 0 0 (fun _ _ => 0) 0)) dy (f (fst (nth i kinds (0%nat, 0))) t).
Proof. exact RmtsOrder_P.rmtc_order. Qed.
Print Assumptions C104_rmtc.
