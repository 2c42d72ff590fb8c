(** C120: a batch of query points is predicted point by point. *)
From Coq Require Import Reals ZArith Arith Bool List Lia Lra.
From Verif Require Import RSum Mat Tri_M Kernels_M Krg_M Idw_M Rbf_M Index_M Index_P Rmtb_M Rmtc_M Batch_M Batch_P Batch_P2 Batch_P3.
From Verif Require Idw_P.
Import ListNotations.
Open Scope list_scope.
Open Scope R_scope.

(** Inverse distance weighting: row e, output o of the array depends on point e alone, whatever memory
    (w, dw, jac) the work arrays and the output buffer held; it is the prediction of Idw_M at that point. *)
Theorem C120_idw : forall nx nt p xt yt w jac n X e o, (e < n)%nat ->
  idw_predict nx nt p xt yt w jac n X e o = idw_value nx nt p xt (fun it => yt it o) (X e).
Proof. exact idw_batch. Qed.
Print Assumptions C120_idw.
Theorem C120_idw_derivatives : forall nx nt p xt yt w dw jac n X kx e o, (kx < nx)%nat -> (e < n)%nat ->
  idw_predict_d nx nt p xt yt w dw jac n X kx e o = idw_derivative nx nt p xt (fun it => yt it o) kx (X e).
Proof. exact idw_batch_d. Qed.
Print Assumptions C120_idw_derivatives.
(** Radial basis functions: every entry of the buffer is written, also for each kind of trend. *)
Theorem C120_rbf : forall nx nt deg d0 xt sol jac n X e o, (e < n)%nat ->
  rbf_predict nx nt deg d0 xt sol jac n X e o = rbf_value nx nt deg d0 xt (fun j => sol j o) (X e).
Proof. exact rbf_batch. Qed.
Print Assumptions C120_rbf.
Theorem C120_rbf_derivatives : forall nx nt deg d0 xt sol jac n X kx e o, (kx < nx)%nat -> (e < n)%nat ->
  rbf_predict_d nx nt deg d0 xt sol jac n X kx e o = rbf_derivative nx nt deg d0 xt (fun j => sol j o) kx (X e).
Proof. exact rbf_batch_d. Qed.
Print Assumptions C120_rbf_derivatives.
Lemma orders_pos l : (forall o, In o l -> (0 < o)%nat) -> (0 < prodl l)%nat.
Proof.
  induction l as [|o l IH]; intros H; [cbn; lia|]. rewrite prodl_cons. apply Nat.mul_pos_pos; [apply H; left; reflexivity|].
  apply IH. intros q Hq. apply H. right. exact Hq.
Qed.
Lemma nterm_pos l : (0 < nterm l)%nat.
Proof. apply orders_pos. intros o H. unfold nterms in H. apply in_map_iff in H. destruct H as (q & <- & _). lia. Qed.
(** Splines: values and derivatives, inside and outside the domain, whatever np.empty left in the arrays. *)
Theorem C120_rmtb : forall orders ncps lo up ext mem mem_dx coef n X e, (forall o, In o orders -> (0 < o)%nat) -> (e < n)%nat ->
  rmtb_predict orders ncps lo up ext mem mem_dx coef 0 n X e = rmtb_value orders ncps lo up ext coef (X e) /\
  forall kx, (kx < length orders)%nat -> rmtb_predict orders ncps lo up ext mem mem_dx coef (S kx) n X e = rmtb_derivative orders ncps lo up ext coef kx (X e).
Proof.
  intros orders ncps lo up ext mem mem_dx coef n X e Ho He. pose proof (orders_pos orders Ho) as P. split.
  - apply rmtb_batch; [exact P|lia|exact He].
  - intros kx Hk. apply rmtb_batch; [exact P|lia|exact He].
Qed.
Print Assumptions C120_rmtb.
Theorem C120_rmtc : forall nelems lo up ext mem mem_dx inv dof n X e, (e < n)%nat ->
  let coef := fun z => dof2coeff nelems inv dof (Z.to_nat z) in
  rmtc_predict nelems lo up ext mem mem_dx coef 0 n X e = rmtc_value nelems lo up ext inv dof (X e) /\
  forall kx, (kx < length nelems)%nat -> rmtc_predict nelems lo up ext mem mem_dx coef (S kx) n X e = rmtc_derivative nelems lo up ext inv dof kx (X e).
Proof.
  intros nelems lo up ext mem mem_dx inv dof n X e He coef. split.
  - apply rmtc_batch; [apply nterm_pos|lia|exact He].
  - intros kx Hk. apply rmtc_batch; [apply nterm_pos|lia|exact He].
Qed.
Print Assumptions C120_rmtc.
(** Kriging and KPLS, for any number of points (the correlations are computed by blocks of 10000 rows). *)
Theorem C120_kriging_values : forall m n X, (0 < n)%nat -> exists y, krg_values m n X = Some y /\ forall e, (e < n)%nat -> y e = predict_value m (X e).
Proof. exact values_rows. Qed.
Print Assumptions C120_kriging_values.
Theorem C120_kriging_variances : forall m n X, (0 < n)%nat -> exists y, krg_variances m n X = Some y /\ forall e, (e < n)%nat -> y e = predict_variance m (X e).
Proof. exact variances_rows. Qed.
Print Assumptions C120_kriging_variances.
Theorem C120_kriging_derivatives : forall m n X kx, (0 < n)%nat ->
  match krg_derivatives m n X kx with
  | Some y => forall e, (e < n)%nat -> predict_derivative m (X e) kx = Some (y e)
  | None => forall x, predict_derivative m x kx = None
  end.
Proof. exact derivatives_rows. Qed.
Print Assumptions C120_kriging_derivatives.
(** The derivative of the variance: right for one point, refused for several. *)
Theorem C120_variance_derivatives : forall m n X kx, (0 < m_nt m)%nat ->
  (n = 1%nat -> krg_variance_derivatives m n X kx = match predict_variance_derivative m (X 0%nat) kx with Some v => Some (fun _ => v) | None => None end) /\
  ((1 < n)%nat -> krg_variance_derivatives m n X kx = None).
Proof.
  intros m n X kx Ht. split; [intros ->; apply variance_derivatives_single|apply variance_derivatives_one; exact Ht].
Qed.
Print Assumptions C120_variance_derivatives.
(** Hence a row of a batch is what the same model gives for that point alone. *)
Theorem C120_alone :
  (forall nx nt p xt yt w jac w' jac' n X e o, (e < n)%nat ->
     idw_predict nx nt p xt yt w jac n X e o = idw_predict nx nt p xt yt w' jac' 1 (fun _ => X e) 0 o) /\
  (forall nx nt deg d0 xt sol jac jac' n X e o, (e < n)%nat ->
     rbf_predict nx nt deg d0 xt sol jac n X e o = rbf_predict nx nt deg d0 xt sol jac' 1 (fun _ => X e) 0 o) /\
  (forall orders ncps lo up ext mem mem' dx dx' coef n X e, (forall o, In o orders -> (0 < o)%nat) -> (e < n)%nat ->
     rmtb_predict orders ncps lo up ext mem dx coef 0 n X e = rmtb_predict orders ncps lo up ext mem' dx' coef 0 1 (fun _ => X e) 0) /\
  (forall nelems lo up ext mem mem' dx dx' coef n X e, (e < n)%nat ->
     rmtc_predict nelems lo up ext mem dx coef 0 n X e = rmtc_predict nelems lo up ext mem' dx' coef 0 1 (fun _ => X e) 0) /\
  (forall m n X e, (e < n)%nat -> exists y y1 v v1,
     krg_values m n X = Some y /\ krg_values m 1 (fun _ => X e) = Some y1 /\ y e = y1 0%nat /\
     krg_variances m n X = Some v /\ krg_variances m 1 (fun _ => X e) = Some v1 /\ v e = v1 0%nat).
Proof.
  split; [intros; rewrite !idw_batch by lia; reflexivity|].
  split; [intros; rewrite !rbf_batch by lia; reflexivity|].
  split; [intros orders ncps lo up ext mem mem' dx dx' coef n X e Ho He; rewrite !rmtb_batch by (try apply orders_pos; try assumption; lia); reflexivity|].
  split; [intros; rewrite !rmtc_batch by (try apply nterm_pos; lia); reflexivity|].
  intros m n X e He.
  destruct (values_rows m n X ltac:(lia)) as (y & E1 & V1). destruct (values_rows m 1 (fun _ => X e) ltac:(lia)) as (y1 & E2 & V2).
  destruct (variances_rows m n X ltac:(lia)) as (v & E3 & V3). destruct (variances_rows m 1 (fun _ => X e) ltac:(lia)) as (v1 & E4 & V4).
  exists y, y1, v, v1. rewrite (V1 e He), (V2 0%nat) by lia. rewrite (V3 e He), (V4 0%nat) by lia. repeat split; assumption.
Qed.
Print Assumptions C120_alone.
(** two query points on two data points of the line, work arrays full of 9s: the predictions are the data *)
Example C120_nonvacuous : let xt := fun it (_ : nat) => INR it in let yt := fun it (_ : nat) => 5 + INR it in
  idw_predict 1 2 2 xt yt (fun _ => 9) (fun _ => 9) 2 (fun e _ => INR (1 - e)) 0 0 = 6 /\
  idw_predict 1 2 2 xt yt (fun _ => 9) (fun _ => 9) 2 (fun e _ => INR (1 - e)) 1 0 = 5.
Proof.
  cbv zeta. split.
  - rewrite C120_idw by lia. rewrite (Idw_P.value_on 1 2 2 _ _ _ 1); [cbn; lra|lia| |].
    + intros j Hj. reflexivity.
    + intros j Hj H. replace j with 0%nat in H by lia. specialize (H 0%nat ltac:(lia)). cbn in H. lra.
  - rewrite C120_idw by lia. rewrite (Idw_P.value_on 1 2 2 _ _ _ 0); [cbn; lra|lia| |].
    + intros j Hj. reflexivity.
    + intros j Hj. lia.
Qed.
