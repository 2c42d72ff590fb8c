(** Theorems C107: Kriging with several outputs.  The one-output model is Krg_M.v; gs_qr, rcond01 and cond0 (Krg_Qr.v) are one choice of the linear algebra. *)
From Coq Require Import Reals Arith Bool List Lia Lra.
From Verif Require Import RSum Mat Tri_M Kernels_M Krg_M Krg_S Krg_Qr Krg_P2 Krg_P3 Krg_P6 Krg_P8 Het_S KrgMulti_M KrgMulti_S KrgMulti_P KrgMulti_P2.
Import ListNotations.
Open Scope list_scope.
Open Scope R_scope.

(** With the hyperparameters given, training on several outputs succeeds exactly when training on any one of them does ... *)
Theorem C107_trains_together : forall qr rcond condF nx nt ny po s nugget noise X Y j, (j < ny)%nat ->
  (exists M, train_multi qr rcond condF nx nt ny po s nugget noise X Y = Some M) <-> (exists m, krg_train qr rcond condF nx nt po s nugget noise X (fun i => Y i j) = Some m).
Proof. exact t_trains. Qed.
Print Assumptions C107_trains_together.
(** ... and the entry of output j at the e-th point of a prediction is what the model trained on output j alone predicts at that point:
    values, variances and derivatives (the latter fail together). *)
Theorem C107_as_if_alone : forall qr rcond condF nx nt ny po s nugget noise X Y M j,
  train_multi qr rcond condF nx nt ny po s nugget noise X Y = Some M -> (j < ny)%nat ->
  exists m, krg_train qr rcond condF nx nt po s nugget noise X (fun i => Y i j) = Some m /\
  forall xs e d, (e < length xs)%nat ->
  entry M (multi_values M xs) e j = predict_value m (nth e xs d) /\
  entry M (multi_variances M xs) e j = predict_variance m (nth e xs d) /\
  forall kx, match multi_derivatives M xs kx with Some l => predict_derivative m (nth e xs d) kx = Some (entry M l e j) | None => predict_derivative m (nth e xs d) kx = None end.
Proof. exact t_alone. Qed.
Print Assumptions C107_as_if_alone.
(** So every output is reproduced at the training points (no nugget, no noise). *)
Theorem C107_reproduces : forall qr rcond condF, qr_contract qr -> rcond_contract rcond -> forall nx nt ny po s noise X Y M i j d,
  train_multi qr rcond condF nx nt ny po s 0 noise X Y = Some M -> (j < ny)%nat -> (i < nt)%nat -> noise i = 0 ->
  forall xs e, (e < length xs)%nat -> nth e xs d = X i -> entry M (multi_values M xs) e j = Y i j.
Proof.
  intros qr rcond condF Hq Hr nx nt ny po s noise X Y M i j d H Hj Hi Z xs e He Ex.
  destruct (t_alone qr rcond condF nx nt ny po s 0 noise X Y M j H Hj) as (m & E & P). destruct (P xs e d He) as [-> _]. rewrite Ex.
  apply (t_exact qr rcond condF Hq Hr _ _ _ _ _ _ _ _ _ E i Hi). rewrite Z. ring.
Qed.
Print Assumptions C107_reproduces.
(** The objective of the hyperparameter search combines the outputs: 10^(-v/nt) is the sum over the outputs of 10^(-v_j/nt), v_j the objective of output j alone. *)
Theorem C107_likelihood : forall qr rcond condF nt p Rm F ny (Yn : mat) ys v pr (w : vec), (0 < nt)%nat -> (0 < ny)%nat ->
  likelihood_multi qr rcond condF nt p ny Rm F Yn ys = MFit v pr ->
  (forall j, (j < ny)%nat -> exists pj, reduced_likelihood qr rcond condF nt p (INR nt) Rm F (fun i => Yn i j) (ys j) = Fit (w j) pj /\ 0 < p_sigma2 pj) ->
  Rpower 10 (- v / INR nt) = rsum ny (fun j => Rpower 10 (- w j / INR nt)).
Proof. exact t_sum. Qed.
Print Assumptions C107_likelihood.
(** Hence the search does not depend on the units (a_j y + b_j, any sign of a_j) in which the outputs are given ... *)
Theorem C107_units : forall qr rcond condF nt p Rm F ny (Y : mat) (a b : vec) ys ys', (2 <= nt)%nat -> (forall j, (j < ny)%nat -> a j <> 0) ->
  mlik (likelihood_multi qr rcond condF nt p ny Rm F (Ynorm nt (fun i j => a j * Y i j + b j)) ys') = mlik (likelihood_multi qr rcond condF nt p ny Rm F (Ynorm nt Y) ys).
Proof. exact t_units. Qed.
Print Assumptions C107_units.
(** ... nor on their order ... *)
Theorem C107_order_of_outputs : forall qr rcond condF nt p Rm F ny (Y : mat) f ys ys', reorder ny f ->
  mlik (likelihood_multi qr rcond condF nt p ny Rm F (Ynorm nt (fun i j => Y i (f j))) ys') = mlik (likelihood_multi qr rcond condF nt p ny Rm F (Ynorm nt Y) ys).
Proof. exact t_reorder. Qed.
Print Assumptions C107_order_of_outputs.
(** ... nor on an output that is constant over the training points; ... *)
Theorem C107_constant_output : forall qr rcond condF nt p Rm F ny (Y : mat) c ys ys', (0 < nt)%nat -> (forall i, (i < nt)%nat -> Y i ny = c) ->
  mlik (likelihood_multi qr rcond condF nt p (S ny) Rm F (Ynorm nt Y) ys) = mlik (likelihood_multi qr rcond condF nt p ny Rm F (Ynorm nt Y) ys').
Proof. exact t_constant. Qed.
Print Assumptions C107_constant_output.
(** ... and outputs that are all affine images of one output have that output's objective, up to the constant nt log10 ny. *)
Theorem C107_proportional_outputs : forall qr rcond condF nt p Rm F ny (y a b : vec) ys s1 w pr1, (2 <= nt)%nat -> (0 < ny)%nat -> (forall j, (j < ny)%nat -> a j <> 0) ->
  reduced_likelihood qr rcond condF nt p (INR nt) Rm F (ynorm nt y) s1 = Fit w pr1 -> 0 < p_sigma2 pr1 ->
  mlik (likelihood_multi qr rcond condF nt p ny Rm F (Ynorm nt (fun i j => a j * y i + b j)) ys) = Some (w - INR nt * log10 (INR ny)).
Proof. exact t_proportional. Qed.
Print Assumptions C107_proportional_outputs.
(** three points, linear trend, two outputs: a training that succeeds, with linear algebra that meets its contract *)
Definition Y2 : mat := fun i j => if Nat.eqb j 0 then yw i else INR i ^ 2.
Example C107_nonvacuous : qr_contract gs_qr /\ rcond_contract rcond01 /\ reorder 2 (fun j => (1 - j)%nat) /\
  (exists M, train_multi gs_qr rcond01 cond0 1 3 2 PLinear sw 0 (fun _ => 0) Xw Y2 = Some M) /\
  (exists w p, reduced_likelihood gs_qr rcond01 cond0 3 2 (INR 3) (corr_matrix sw 1 3 (Xnorm 3 Xw) 0 (fun _ => 0)) (fun i j => fvec PLinear 1 (Xnorm 3 Xw i) j) (ynorm 3 yw) (scale1 3 yw) = Fit w p /\ 0 < p_sigma2 p).
Proof.
  destruct linear_refuted as (m & _ & E & _).
  split; [exact gs_contract|]. split; [exact rcond01_contract|]. split; [split; intros; lia|]. split.
  - apply (t_trains gs_qr rcond01 cond0 1 3 2 PLinear sw 0 (fun _ => 0) Xw Y2 0%nat ltac:(lia)). exists m. exact E.
  - pose proof (train_inv _ _ _ _ _ _ _ _ _ _ _ _ gs_contract rcond01_contract E) as T.
    assert (S2 : 0 < p_sigma2 (m_par m)).
    { apply (sigma2_pos 1 3 PLinear sw 0 (fun _ => 0) Xw yw m T). intros b. 
    set (c := scale1 3 yw). assert (cn : c <> 0) by apply scale1_nz.
    destruct (Req_dec (ynorm 3 yw 0%nat) (mv 2 (Fmat PLinear 1 3 Xw) b 0%nat)) as [E0|N]; [|exists 0%nat; split; [lia|exact N]].
    destruct (Req_dec (ynorm 3 yw 1%nat) (mv 2 (Fmat PLinear 1 3 Xw) b 1%nat)) as [E1|N]; [|exists 1%nat; split; [lia|exact N]].
    exists 2%nat. split; [lia|]. intros E2. cbn [n_regr Nat.add] in E2. unfold mv in E0, E1, E2. cbn [rsum] in E0, E1, E2. rewrite F_w0, F_w1 in E0 by lia. rewrite F_w0, F_w1 in E1 by lia. rewrite F_w0, F_w1 in E2 by lia.
    unfold ynorm in E0, E1, E2. rewrite mean_yw in E0, E1, E2. fold c in E0, E1, E2. unfold yw, fz in E0, E1, E2. cbn [Nat.eqb] in E0, E1, E2. unfold Rdiv in E0, E1, E2.
    assert (b 1%nat = 0) by lra. assert (/ c = 0) by lra. apply (Rinv_neq_0_compat c cn). assumption. }
    unfold krg_train in E. cbv zeta in E.
    match type of E with context [reduced_likelihood ?a ?b ?c ?d ?e ?f ?g ?h ?i ?j] => destruct (reduced_likelihood a b c d e f g h i j) as [w p| |] eqn:Q end; [|discriminate E..].
    exists w, p. split; [exact Q|]. injection E as <-. exact S2.
Qed.
