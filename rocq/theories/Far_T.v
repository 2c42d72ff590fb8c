(** Property C116. *)
From Coq Require Import Reals Arith Bool List Lia Lra.
From Verif Require Import RSum Mat Kernels_M Krg_M Krg_S Krg_P2 Krg_P7 Krg_Qr Krg_P6 Far_S Far_P Far_P2 Far_P3 Far_P4.
From Verif Require Idw_M Rbf_M Genn_M.
Open Scope R_scope.

(** Kriging and KPLS: predictions approach the trend fitted by generalised least squares. *)
Theorem C116_kriging_reverts_to_the_trend : forall qr rcond condF, qr_contract qr -> rcond_contract rcond ->
  forall nx nt po s nugget noise X y m, krg_train qr rcond condF nx nt po s nugget noise X y = Some m -> sees_all s nx ->
  exists b, gls_fit nt (n_regr po nx) (d_corr nx nt s nugget noise X) (d_trend nx nt po X) y b /\
            limit_far nx (predict_value m) (fun x => rsum (n_regr po nx) (fun j => b j * q_trend nx nt po X x j)).
Proof. exact krg_far. Qed.
Print Assumptions C116_kriging_reverts_to_the_trend.
(** With a constant trend: to the mean of the outputs weighted by the row sums v of the inverse correlation matrix,
    and the variance to the process variance plus that of this mean. *)
Theorem C116_kriging_constant_trend : forall qr rcond condF, qr_contract qr -> rcond_contract rcond ->
  forall nx nt s nugget noise X y m, krg_train qr rcond condF nx nt PConstant s nugget noise X y = Some m -> sees_all s nx -> (forall i, (i < nt)%nat -> 0 <= nugget + noise i) ->
  (exists v : vec, forall i, (i < nt)%nat -> mv nt (d_corr nx nt s nugget noise X) v i = 1) /\
  forall v : vec, (forall i, (i < nt)%nat -> mv nt (d_corr nx nt s nugget noise X) v i = 1) ->
    0 < rsum nt v /\ limit_far nx (predict_value m) (fun _ => rsum nt (fun i => v i * y i) / rsum nt v) /\
    limit_far nx (predict_variance m) (fun _ => p_sigma2 (m_par m) * (1 + 1 / rsum nt v)).
Proof. exact krg_far_constant. Qed.
Print Assumptions C116_kriging_constant_trend.
(** With a linear or quadratic trend the variance grows beyond every bound. *)
Theorem C116_kriging_trend_variance : forall qr rcond condF, qr_contract qr -> rcond_contract rcond ->
  forall nx nt po s nugget noise X y m, krg_train qr rcond condF nx nt po s nugget noise X y = Some m -> sees_all s nx -> (forall i, (i < nt)%nat -> 0 <= nugget + noise i) ->
  po <> PConstant -> 0 < p_sigma2 (m_par m) -> forall B, exists D, forall x, away nx D x -> B < predict_variance m x.
Proof. exact krg_far_trend. Qed.
Print Assumptions C116_kriging_trend_variance.
(** IDW: predictions approach the plain mean of the training outputs, whatever the exponent. *)
Theorem C116_idw_mean : forall nx nt p xt, (0 < nt)%nat -> forall yt, limit_far nx (Idw_M.idw_value nx nt p xt yt) (fun _ => rsum nt yt / INR nt).
Proof. exact idw_far. Qed.
Print Assumptions C116_idw_mean.
(** RBF: predictions approach the polynomial tail - 0 without one. *)
Theorem C116_rbf_tail : forall nx nt deg d0 xt (sol : vec), (forall k, (k < nx)%nat -> d0 k <> 0) ->
  limit_far nx (Rbf_M.rbf_value nx nt deg d0 xt sol)
    (fun x => match deg with
              | Rbf_M.NoPoly => 0
              | Rbf_M.Constant => sol nt
              | Rbf_M.Linear => sol nt + rsum nx (fun k => sol (nt + 1 + k)%nat * x k)
              end).
Proof. exact rbf_far. Qed.
Print Assumptions C116_rbf_tail.
(** GENN (tanh or sigmoid last hidden layer, linear output): every prediction at every input is within a bound given by the output layer. *)
Theorem C116_genn_bounded : forall hs h o s nx ny m (x : nat -> nat -> R), Genn_M.act h <> Genn_M.Linear -> Genn_M.act o = Genn_M.Linear ->
  exists Y, Genn_M.predict_values (hs ++ h :: o :: nil) s nx ny m x = Some Y /\ forall e k, (e < m)%nat -> (k < ny)%nat ->
    Rabs (Y e k) <= (rsum (Genn_M.n_in o) (fun q => Rabs (Genn_M.weight o k q)) + Rabs (Genn_M.bias o k)) * Rabs (Genn_M.sigma_y s k) + Rabs (Genn_M.mu_y s k).
Proof. exact genn_bounded. Qed.
Print Assumptions C116_genn_bounded.
(** A kernel that ignores an input (theta = 0) does not forget along it: with a constant trend the prediction does not change with that input at all. *)
Theorem C116_blind_input_refuted : forall qr rcond condF, qr_contract qr -> rcond_contract rcond ->
  forall nx nt c theta nugget noise X y m k, krg_train qr rcond condF nx nt PConstant (KStd c theta) nugget noise X y = Some m -> c <> ActExp -> theta k = 0 ->
  forall x t, predict_value m (upd x k t) = predict_value m x.
Proof. exact krg_blind. Qed.
Print Assumptions C116_blind_input_refuted.
Example C116_nonvacuous :
  (exists m, krg_train gs_qr rcond01 cond0 1 3 PLinear sw 0 (fun _ => 0) Xw yw = Some m) /\ sees_all sw 1 /\
  (exists m, krg_train gs_qr rcond01 cond0 1 2 PConstant sc1 1 (fun _ => 0) Xc yc = Some m) /\ sees_all sc1 1 /\
  (forall i, (i < 2)%nat -> mv 2 (d_corr 1 2 sc1 1 (fun _ => 0) Xc) (fun _ => 1 / 3) i = 1).
Proof.
  split; [destruct linear_refuted as (m & w & E & _); exists m; exact E|]. split; [split; [congruence|intros; assert (0 < ln 2) by (rewrite <- ln_1; apply ln_increasing; lra); lra]|].
  split; [destruct constant_column_refuted as (m & E & _); exists m; exact E|]. split; [split; [congruence|intros; lra]|].
  intros i Hi. rewrite <- (mv_ext 2 (corr_matrix sc1 1 2 (Xnorm 2 Xc) 1 (fun _ => 0)) _ (fun _ => 1 / 3) (fun _ => 1 / 3) i) by (intros; try reflexivity; apply Krg_P8.d_corr_eq; assumption).
  unfold mv. cbn [rsum]. rewrite !R_c by lia. destruct i as [|[|i]]; [| |lia]; cbn [Nat.eqb]; lra.
Qed.
