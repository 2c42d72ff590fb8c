(** Properties C26, C27, C76 (IDW part). *)
From Coq Require Import Reals Arith Bool List Lia Lra.
From Coquelicot Require Import Coquelicot.
From Verif Require Import RSum Idw_M Idw_P Idw_P2.
Import ListNotations.
Open Scope R_scope.

(** C26. At a training point the value is the output of the first training point placed there ... *)
Theorem C26_interpolates : forall nx nt p xt yt x i, (i < nt)%nat -> (forall k, (k < nx)%nat -> x k = xt i k) ->
  (forall j, (j < i)%nat -> ~ (forall k, (k < nx)%nat -> x k = xt j k)) -> idw_value nx nt p xt yt x = yt i.
Proof. exact (fun nx nt p xt yt x i Hi O F => value_on nx nt p xt yt x i Hi O F). Qed.
Print Assumptions C26_interpolates.
(** ... elsewhere it is the inverse-distance weighted mean ... *)
Theorem C26_weighted_mean : forall nx nt p xt yt x, (forall i, (i < nt)%nat -> ~ (forall k, (k < nx)%nat -> x k = xt i k)) ->
  idw_value nx nt p xt yt x =
  rsum nt (fun i => Rpower (rsum nx (fun k => (x k - xt i k) ^ 2)) (- p / 2) * yt i) / rsum nt (fun i => Rpower (rsum nx (fun k => (x k - xt i k) ^ 2)) (- p / 2)).
Proof. exact (fun nx nt p xt yt x F => value_off nx nt p xt yt x F). Qed.
Print Assumptions C26_weighted_mean.
(** ... and it always stays between the smallest and the largest training output. *)
Theorem C26_between_the_data : forall nx nt p xt yt x l u, (0 < nt)%nat -> (forall i, (i < nt)%nat -> l <= yt i <= u) ->
  l <= idw_value nx nt p xt yt x <= u.
Proof. exact value_bounds. Qed.
Print Assumptions C26_between_the_data.
Example C26_nonvacuous : idw_value 1 2 2 (fun i _ => INR i) INR (fun _ => 1) = 1.
Proof. exact nonvac26. Qed.

(** C27. The derivative prediction is the partial derivative of the value away from the data ... *)
Theorem C27_derivative_away_from_data : forall nx nt p xt yt x k, (0 < nt)%nat -> (k < nx)%nat ->
  (forall i, (i < nt)%nat -> ~ (forall k, (k < nx)%nat -> x k = xt i k)) ->
  is_partial (idw_value nx nt p xt yt) x k (idw_derivative nx nt p xt yt k x).
Proof. exact (fun nx nt p xt yt x k Hn Hk F => derivative_off nx nt p xt yt x k Hn Hk F). Qed.
Print Assumptions C27_derivative_away_from_data.
(** ... and at the (distinct) training points when p > 1, where it is 0; ... *)
Theorem C27_derivative_at_data : forall nx nt p xt yt x k i, (i < nt)%nat -> (k < nx)%nat -> (forall k, (k < nx)%nat -> x k = xt i k) ->
  (forall j, (j < nt)%nat -> j <> i -> ~ (forall k, (k < nx)%nat -> xt j k = xt i k)) -> 1 < p ->
  idw_derivative nx nt p xt yt k x = 0 /\ is_partial (idw_value nx nt p xt yt) x k 0.
Proof. exact (fun nx nt p xt yt x k i Hi Hk O D Hp => derivative_on nx nt p xt yt x k i Hi Hk O D Hp). Qed.
Print Assumptions C27_derivative_at_data.
(** ... for p = 1 the reported 0 is wrong. *)
Theorem C27_order_one_refuted : let xt := fun i (_ : nat) => INR i in
  idw_derivative 1 2 1 xt INR 0 (fun _ => 0) = 0 /\ ~ is_partial (idw_value 1 2 1 xt INR) (fun _ => 0) 0 0.
Proof. exact idw_p1_refuted. Qed.
Print Assumptions C27_order_one_refuted.
Example C27_nonvacuous : forall i, (i < 2)%nat -> ~ (forall k, (k < 1)%nat -> (fun _ : nat => 1 / 2) k = (fun i (_ : nat) => INR i) i k).
Proof. exact nonvac27. Qed.

(** The output derivatives are the weights of the training outputs: they reproduce the prediction,
    are non-negative and sum to one. *)
Theorem C27_output_derivatives_are_weights : forall nx nt p xt yt x, (0 < nt)%nat ->
  idw_value nx nt p xt yt x = rsum nt (fun i => idw_output_derivative nx nt p xt x i * yt i) /\
  (forall i, (i < nt)%nat -> 0 <= idw_output_derivative nx nt p xt x i) /\
  rsum nt (idw_output_derivative nx nt p xt x) = 1.
Proof. exact weights_sum. Qed.
Print Assumptions C27_output_derivatives_are_weights.

(** C76 (IDW). Changing the training outputs changes the prediction by the predicted output derivatives. *)
Theorem C76_idw_output_derivatives : forall nx nt p xt yt yt' x,
  idw_value nx nt p xt yt' x - idw_value nx nt p xt yt x = rsum nt (fun i => idw_output_derivative nx nt p xt x i * (yt' i - yt i)).
Proof. exact output_exact. Qed.
Print Assumptions C76_idw_output_derivatives.
