(** Property C108: the order of the input variables is irrelevant, except for the variance with a trend that is not constant. *)
From Coq Require Import Reals Arith Bool List Lia Lra.
From Verif Require Import RSum Mat Tri_M Tri_P Kernels_M Krg_M Krg_S Krg_P Krg_P2 Krg_P3 Krg_Qr Het_S Inp_S Inp_P1 Inp_P2 Inp_P3 Inp_P4 Inp_P6.
From Verif Require Idw_M Rbf_M Rbf_S Poly_M Psd2 Inp_P5.
Import ListNotations.
Open Scope list_scope.
Open Scope R_scope.
(** Kriging (all kernels, also with PLS directions, all trends): variable c of the second model is variable f c of the first *)
Theorem C108_kriging : forall qr rcond condF nx nt po s nugget noise X y f m, qr_contract qr -> rcond_contract rcond -> rcond_cols rcond -> cond_cols condF -> reorder nx f ->
  krg_train qr rcond condF nx nt po s nugget noise X y = Some m ->
  exists m', krg_train qr rcond condF nx nt po (swap_k f s) nugget noise (fun i => swap_in f (X i)) y = Some m' /\
    p_sigma2 (m_par m') = p_sigma2 (m_par m) /\
    forall x, predict_value m' (swap_in f x) = predict_value m x /\ (po = PConstant -> predict_variance m' (swap_in f x) = predict_variance m x) /\
      forall kx, (kx < nx)%nat -> predict_derivative m' (swap_in f x) kx = predict_derivative m x (f kx) /\
        predict_variance_derivative m' (swap_in f x) kx = predict_variance_derivative m x (f kx).
Proof.
  intros qr rcond condF nx nt po s nugget noise X y f m HQ HR HG HC RO E. destruct (w_trains nx nt po s nugget noise X y f RO qr rcond condF HQ HR HG HC m E) as (m' & E'). exists m'. split; [exact E'|].
  pose proof (train_inv _ _ _ _ _ _ _ _ _ _ _ _ HQ HR E) as T. pose proof (train_inv _ _ _ _ _ _ _ _ _ _ _ _ HQ HR E') as T'.
  split; [exact (w_s2 nx nt po s nugget noise X y f RO m m' T T')|]. intros x.
  split; [exact (w_value nx nt po s nugget noise X y f RO m m' T T' x)|]. split; [exact (w_variance nx nt po s nugget noise X y f RO m m' T T' x)|].
  intros kx Hk. split; [exact (w_deriv nx nt po s nugget noise X y f RO m m' T T' x kx Hk)|exact (w_vderiv nx nt po s nugget noise X y f RO m m' T T' x kx Hk)].
Qed.
Print Assumptions C108_kriging.
(** with a linear trend the reported variance does depend on the order: four points in two variables *)
Theorem C108_variance_linear_refuted : exists m m', krg_train gs_qr rcond01 cond0 2 4 PLinear so 0 (fun _ => 0) Xo yo = Some m /\
  krg_train gs_qr rcond01 cond0 2 4 PLinear (swap_k turn so) 0 (fun _ => 0) (fun i => swap_in turn (Xo i)) yo = Some m' /\
  predict_variance m' (swap_in turn qo) <> predict_variance m qo.
Proof. exact order_refuted. Qed.
Print Assumptions C108_variance_linear_refuted.
(** the objective of the hyperparameter search is the same function of the reordered hyperparameters, with the same failures *)
Theorem C108_likelihood : forall nx nt po s nugget noise X y f, reorder nx f -> forall qr rcond condF, qr_contract qr -> rcond_contract rcond -> rcond_cols rcond -> cond_cols condF ->
  exists g, reorder (n_regr po nx) g /\ forall dof, (n_regr po nx <= nt)%nat -> same_outcome_cols (n_regr po nx) g
  (reduced_likelihood qr rcond condF nt (n_regr po nx) dof (corr_matrix s nx nt (Xnorm nt X) nugget noise) (fun i j => fvec po nx (Xnorm nt X i) j) (ynorm nt y) (scale1 nt y))
  (reduced_likelihood qr rcond condF nt (n_regr po nx) dof (corr_matrix (swap_k f s) nx nt (Xnorm nt (fun i => swap_in f (X i))) nugget noise) (fun i j => fvec po nx (Xnorm nt (fun i => swap_in f (X i)) i) j) (ynorm nt y) (scale1 nt y)).
Proof. intros nx nt po s nugget noise X y f RO qr rcond condF HQ HR HG HC. exists (mperm nx f po). split; [exact (mperm_reorder nx f RO po)|]. intros dof. exact (w_outcome nx nt po s nugget noise X y f RO qr rcond condF HQ HR HG HC dof). Qed.
Print Assumptions C108_likelihood.
(** the linear-algebra routines of Krg_Qr.v meet the hypotheses; the model of the witness trains *)
Example C108_nonvacuous : qr_contract gs_qr /\ rcond_contract rcond01 /\ rcond_cols rcond01 /\ cond_cols cond0 /\ reorder 2 turn /\
  exists m, krg_train gs_qr rcond01 cond0 2 4 PLinear so 0 (fun _ => 0) Xo yo = Some m.
Proof.
  split; [exact gs_contract|]. split; [exact rcond01_contract|]. split; [exact rcond01_cols|]. split; [exact cond0_cols|]. split; [exact turn_reorder|].
  destruct order_refuted as (m & _ & E & _). exists m. exact E.
Qed.
(** IDW *)
Theorem C108_idw : forall nx nt f xt yt, reorder nx f -> forall p x,
  Idw_M.idw_value nx nt p (fun i => swap_in f (xt i)) yt (swap_in f x) = Idw_M.idw_value nx nt p xt yt x /\
  forall kx, Idw_M.idw_derivative nx nt p (fun i => swap_in f (xt i)) yt kx (swap_in f x) = Idw_M.idw_derivative nx nt p xt yt (f kx) x.
Proof. intros nx nt f xt yt RO p x. split; [exact (idw_swap nx nt f xt yt RO p x)|exact (idw_dswap nx nt f xt yt RO p x)]. Qed.
Print Assumptions C108_idw.
(** RBF: the width d0 of each variable goes with it; whatever solutions of the two linear systems the solvers return *)
Theorem C108_rbf : forall nx nt f xt yt, reorder nx f -> forall deg d0 reg sol sol', (forall k, (k < nx)%nat -> d0 k <> 0) -> 0 <= reg -> (reg = 0 -> Psd2.distinct nx nt xt) -> Rbf_S.trend_full_rank nx nt deg xt ->
  Rbf_M.rbf_solves nx nt deg d0 xt reg yt sol -> Rbf_M.rbf_solves nx nt deg (swap_in f d0) (fun i => swap_in f (xt i)) reg yt sol' ->
  forall x, Rbf_M.rbf_value nx nt deg (swap_in f d0) (fun i => swap_in f (xt i)) sol' (swap_in f x) = Rbf_M.rbf_value nx nt deg d0 xt sol x /\
    forall kx, (kx < nx)%nat -> Rbf_M.rbf_derivative nx nt deg (swap_in f d0) (fun i => swap_in f (xt i)) sol' kx (swap_in f x) = Rbf_M.rbf_derivative nx nt deg d0 xt sol (f kx) x.
Proof. intros nx nt f xt yt RO deg d0 reg. exact (rbf_swap nx nt f xt yt RO deg d0 reg). Qed.
Print Assumptions C108_rbf.
(** QP, when the two systems of normal equations are invertible *)
Theorem C108_qp : forall inv dim nt f xt yt coef coef', let X := fun e a => Poly_M.qp_row dim (xt e) a in let X' := fun e a => Poly_M.qp_row dim (swap_in f (xt e)) a in let XtX := mm nt (tr X) X in let XtX' := mm nt (tr X') X' in
  (0 < dim)%nat -> reorder dim f ->
  (forall i j, (i < Poly_M.qp_napp dim)%nat -> (j < Poly_M.qp_napp dim)%nat -> mm (Poly_M.qp_napp dim) XtX (inv XtX) i j = idm i j) ->
  (forall i j, (i < Poly_M.qp_napp dim)%nat -> (j < Poly_M.qp_napp dim)%nat -> mm (Poly_M.qp_napp dim) XtX' (inv XtX') i j = idm i j) ->
  Poly_M.qp_train inv dim nt xt yt = Some coef -> Poly_M.qp_train inv dim nt (fun e => swap_in f (xt e)) yt = Some coef' ->
  forall x, Poly_M.qp_value dim coef' (swap_in f x) = Poly_M.qp_value dim coef x /\
    forall kx, (kx < dim)%nat -> Poly_M.qp_derivative dim coef' kx (swap_in f x) = Poly_M.qp_derivative dim coef (f kx) x.
Proof. exact Inp_P5.qp_swap. Qed.
Print Assumptions C108_qp.
(** LS: the same values at the training points, and everywhere if these are not all in one hyperplane *)
Theorem C108_ls : forall lstsq nx nt xt yt f, (forall (X : mat) (y : vec) k, (k < nx)%nat -> mv nt (tr X) (fun e => mv nx X (lstsq nt nx X y) e - y e) k = 0) -> (0 < nt)%nat -> reorder nx f ->
  let m := Poly_M.ls_fit lstsq nx nt xt yt in let m' := Poly_M.ls_fit lstsq nx nt (fun i => swap_in f (xt i)) yt in
  (forall e, (e < nt)%nat -> Poly_M.ls_value nx m' (swap_in f (xt e)) = Poly_M.ls_value nx m (xt e)) /\
  ((forall a' (b' : vec), (forall i, (i < nt)%nat -> a' + rsum nx (fun k => b' k * xt i k) = 0) -> a' = 0 /\ forall k, (k < nx)%nat -> b' k = 0) ->
   forall x, Poly_M.ls_value nx m' (swap_in f x) = Poly_M.ls_value nx m x /\
     forall kx, (kx < nx)%nat -> Poly_M.ls_derivative m' kx (swap_in f x) = Poly_M.ls_derivative m (f kx) x).
Proof.
  intros lstsq nx nt xt yt f L P RO m m'. split; [exact (Inp_P5.ls_train_swap lstsq nx nt xt yt f L P RO)|].
  intros FR x. split; [exact (Inp_P5.ls_swap lstsq nx nt xt yt f L P RO FR x)|exact (Inp_P5.ls_dswap lstsq nx nt xt yt f L P RO FR x)].
Qed.
Print Assumptions C108_ls.
