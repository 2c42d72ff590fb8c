(** Property C117. *)
From Coq Require Import Reals Arith Bool List Lia Lra.
From Verif Require Import RSum Mat Kernels_M Krg_M Krg_S Krg_P2 Krg_P3 Krg_P7 Krg_Qr Krg_P6 Trend_T Lin_P.
From Verif Require Idw_M Rbf_M Rbf_S Poly_M Psd2.
Open Scope R_scope.

(** Kriging at given hyperparameters: whether training succeeds does not depend on the outputs; ... *)
Theorem C117_kriging_trainable : forall qr rcond condF nx nt po s nugget noise X y y',
  (exists m, krg_train qr rcond condF nx nt po s nugget noise X y = Some m) -> exists m, krg_train qr rcond condF nx nt po s nugget noise X y' = Some m.
Proof. exact train_y_free. Qed.
Print Assumptions C117_kriging_trainable.
(** ... every prediction is a combination of the outputs with weights that do not depend on them and sum to one; ... *)
Theorem C117_kriging_weights : forall qr rcond condF nx nt po s nugget noise X, qr_contract qr -> rcond_contract rcond ->
  forall y m, krg_train qr rcond condF nx nt po s nugget noise X y = Some m ->
  exists w : vec -> vec, forall y' m', krg_train qr rcond condF nx nt po s nugget noise X y' = Some m' ->
    forall x, predict_value m' x = rsum nt (fun i => w x i * y' i) /\ rsum nt (w x) = 1.
Proof. exact krg_weights. Qed.
Print Assumptions C117_kriging_weights.
(** ... so predictions and derivatives of the model of a*y1 + b*y2 are the same combination of those of the two models. *)
Theorem C117_kriging_superposition : forall qr rcond condF nx nt po s nugget noise X, qr_contract qr -> rcond_contract rcond ->
  forall y1 y2 a b m1 m2 m3, krg_train qr rcond condF nx nt po s nugget noise X y1 = Some m1 -> krg_train qr rcond condF nx nt po s nugget noise X y2 = Some m2 ->
  krg_train qr rcond condF nx nt po s nugget noise X (fun i => a * y1 i + b * y2 i) = Some m3 -> forall x,
  predict_value m3 x = a * predict_value m1 x + b * predict_value m2 x.
Proof. exact krg_super. Qed.
Print Assumptions C117_kriging_superposition.
Theorem C117_kriging_derivative_superposition : forall qr rcond condF nx nt po s nugget noise X, qr_contract qr -> rcond_contract rcond ->
  forall y1 y2 a b m1 m2 m3, krg_train qr rcond condF nx nt po s nugget noise X y1 = Some m1 -> krg_train qr rcond condF nx nt po s nugget noise X y2 = Some m2 ->
  krg_train qr rcond condF nx nt po s nugget noise X (fun i => a * y1 i + b * y2 i) = Some m3 -> k_ok s nx -> forall x kx d1 d2 d3, (kx < nx)%nat ->
  predict_derivative m1 x kx = Some d1 -> predict_derivative m2 x kx = Some d2 -> predict_derivative m3 x kx = Some d3 -> d3 = a * d1 + b * d2.
Proof. exact krg_super_d. Qed.
Print Assumptions C117_kriging_derivative_superposition.
(** Kriging reproduces every polynomial of the degree of its trend exactly, at every point, with variance 0 - even with a nugget or noise. *)
Theorem C117_kriging_reproduces_polynomials : forall qr rcond condF nx nt po s nugget noise X, qr_contract qr -> rcond_contract rcond ->
  forall y m f, krg_train qr rcond condF nx nt po s nugget noise X y = Some m -> polynomial po nx f -> (forall i, (i < nt)%nat -> y i = f (X i)) ->
  forall x, predict_value m x = f x /\ predict_variance m x = 0.
Proof. intros qr rcond condF nx nt po s nugget noise X HQ HR y m f E P Y x. split; [exact (krg_reproduces qr rcond condF nx nt po s nugget noise X HQ HR y m f E P Y x)|exact (krg_reproduces_variance qr rcond condF nx nt po s nugget noise X HQ HR y m f E P Y x)]. Qed.
Print Assumptions C117_kriging_reproduces_polynomials.
(** IDW, RBF, QP and LS *)
Theorem C117_idw : forall nx nt p xt y1 y2 a b x,
  Idw_M.idw_value nx nt p xt (fun i => a * y1 i + b * y2 i) x = a * Idw_M.idw_value nx nt p xt y1 x + b * Idw_M.idw_value nx nt p xt y2 x /\
  forall k, Idw_M.idw_derivative nx nt p xt (fun i => a * y1 i + b * y2 i) k x = a * Idw_M.idw_derivative nx nt p xt y1 k x + b * Idw_M.idw_derivative nx nt p xt y2 k x.
Proof. intros. split; [apply idw_super|intros; apply idw_super_d]. Qed.
Print Assumptions C117_idw.
Theorem C117_rbf : forall nx nt deg d0 xt reg y1 y2 a b s1 s2 s3, (forall k, (k < nx)%nat -> d0 k <> 0) -> 0 <= reg -> (reg = 0 -> Psd2.distinct nx nt xt) -> Rbf_S.trend_full_rank nx nt deg xt ->
  Rbf_M.rbf_solves nx nt deg d0 xt reg y1 s1 -> Rbf_M.rbf_solves nx nt deg d0 xt reg y2 s2 -> Rbf_M.rbf_solves nx nt deg d0 xt reg (fun i => a * y1 i + b * y2 i) s3 ->
  forall x, Rbf_M.rbf_value nx nt deg d0 xt s3 x = a * Rbf_M.rbf_value nx nt deg d0 xt s1 x + b * Rbf_M.rbf_value nx nt deg d0 xt s2 x /\
  forall k, Rbf_M.rbf_derivative nx nt deg d0 xt s3 k x = a * Rbf_M.rbf_derivative nx nt deg d0 xt s1 k x + b * Rbf_M.rbf_derivative nx nt deg d0 xt s2 k x.
Proof. exact rbf_super. Qed.
Print Assumptions C117_rbf.
Theorem C117_qp : forall inv dim nt xt y1 y2 a b c1 c2 c3, Poly_M.qp_train inv dim nt xt y1 = Some c1 -> Poly_M.qp_train inv dim nt xt y2 = Some c2 -> Poly_M.qp_train inv dim nt xt (fun i => a * y1 i + b * y2 i) = Some c3 ->
  forall x, Poly_M.qp_value dim c3 x = a * Poly_M.qp_value dim c1 x + b * Poly_M.qp_value dim c2 x.
Proof.
  intros inv dim nt xt y1 y2 a b c1 c2 c3 E1 E2 E3 x. unfold Poly_M.qp_value. rewrite (dot_ext _ _ c3 _ (fun i => a * c1 i + b * c2 i) (fun _ _ => eq_refl) (fun i _ => qp_super inv dim nt xt y1 y2 a b c1 c2 c3 E1 E2 E3 i)). rewrite dot_plus_r, !dot_scal_r. reflexivity.
Qed.
Print Assumptions C117_qp.
Theorem C117_ls : forall lstsq nx nt xt y1 y2 a b,
  (forall (X : mat) (y : vec) k, (k < nx)%nat -> mv nt (tr X) (fun e => mv nx X (lstsq nt nx X y) e - y e) k = 0) -> (0 < nt)%nat ->
  let value y := Poly_M.ls_value nx (Poly_M.ls_fit lstsq nx nt xt y) in
  (forall e, (e < nt)%nat -> value (fun i => a * y1 i + b * y2 i) (xt e) = a * value y1 (xt e) + b * value y2 (xt e)) /\
  ((forall a' (b' : vec), (forall i, (i < nt)%nat -> a' + rsum nx (fun k => b' k * xt i k) = 0) -> a' = 0 /\ forall k, (k < nx)%nat -> b' k = 0) ->
   forall x, value (fun i => a * y1 i + b * y2 i) x = a * value y1 x + b * value y2 x).
Proof. intros lstsq nx nt xt y1 y2 a b L P value. split; [exact (ls_super_train lstsq nx nt xt y1 y2 a b L P)|exact (ls_super lstsq nx nt xt y1 y2 a b L P)]. Qed.
Print Assumptions C117_ls.
Example C117_nonvacuous : exists m, krg_train gs_qr rcond01 cond0 1 3 PLinear sw 0 (fun _ => 0) Xw (fun i => 5 - 2 * Xw i 0%nat) = Some m /\
  polynomial PLinear 1 (fun x => 5 - 2 * x 0%nat) /\ (forall x, predict_value m x = 5 - 2 * x 0%nat).
Proof.
  destruct linear_refuted as (m0 & w & E & _). destruct (train_y_free gs_qr rcond01 cond0 1 3 PLinear sw 0 (fun _ => 0) Xw yw (fun i => 5 - 2 * Xw i 0%nat) (ex_intro _ m0 E)) as [m Em]. exists m. split; [exact Em|].
  assert (P : polynomial PLinear 1 (fun x => 5 - 2 * x 0%nat)) by (exists 5, (fun _ => -2); intros x; cbn; ring). split; [exact P|].
  intros x. apply (krg_reproduces gs_qr rcond01 cond0 1 3 PLinear sw 0 (fun _ => 0) Xw gs_contract rcond01_contract _ m (fun x => 5 - 2 * x 0%nat) Em P (fun i _ => eq_refl) x).
Qed.
