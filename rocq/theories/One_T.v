(** C122: what one more observation changes. *)
From Coq Require Import Reals Arith Bool List Lia Lra.
From Verif Require Import RSum Mat Kernels_M Krg_M Krg_S Krg_P3 Krg_P8 Krg_Qr Krg_T Add_S Add_P2 Add_P3 One_S One_P2 Lin_P EgoKrg_P3.
Open Scope R_scope.

(** Kriging, any trend, nugget and noise, when the kernel stays the same function of the raw inputs.  [ws] are the weights of the best linear unbiased
    prediction at the new input from the old data, [v] the (relative) variance of the observation to be made there, [r] its prediction error.  The prediction at x
    moves by covariance / v times r, *)
Theorem C122_prediction_update : forall qr rcond condF, qr_contract qr -> rcond_contract rcond ->
  forall nx po nugget n s s2 noise noise2 X X2 y y2 m m2,
  krg_train qr rcond condF nx n po s nugget noise X y = Some m -> krg_train qr rcond condF nx (S n) po s2 nugget noise2 X2 y2 = Some m2 ->
  extends n (S n) noise X y noise2 X2 y2 -> same_correlation nx n s X (S n) s2 X2 ->
  forall ws, q_blup nx n po s nugget noise X (X2 n) ws ->
  let v := q_mse nx n s nugget noise X (X2 n) ws + (nugget + noise2 n) in let r := y2 n - predict_value m (X2 n) in
  0 < v /\ forall x w, q_blup nx n po s nugget noise X x w -> predict_value m2 x = predict_value m x + q_cov nx n s nugget noise X x w (X2 n) ws / v * r.
Proof.
  intros qr rcond condF HQ HR nx po nugget n s s2 noise noise2 X X2 y y2 m m2 E E2 EX SC ws B. split.
  - exact (vp qr rcond condF HQ HR nx po nugget n s s2 noise noise2 X X2 y y2 m m2 E E2 EX SC ws B).
  - exact (value_step qr rcond condF HQ HR nx po nugget n s s2 noise noise2 X X2 y y2 m m2 E E2 EX SC ws B).
Qed.
Print Assumptions C122_prediction_update.
(** the mean squared error of the best linear unbiased prediction at x decreases by covariance^2 / v, whatever is observed, *)
Theorem C122_error_update : forall qr rcond condF, qr_contract qr -> rcond_contract rcond ->
  forall nx po nugget n s s2 noise noise2 X X2 y y2 m m2,
  krg_train qr rcond condF nx n po s nugget noise X y = Some m -> krg_train qr rcond condF nx (S n) po s2 nugget noise2 X2 y2 = Some m2 ->
  extends n (S n) noise X y noise2 X2 y2 -> same_correlation nx n s X (S n) s2 X2 ->
  forall ws, q_blup nx n po s nugget noise X (X2 n) ws ->
  let v := q_mse nx n s nugget noise X (X2 n) ws + (nugget + noise2 n) in
  forall x w w2, q_blup nx n po s nugget noise X x w -> q_blup nx (S n) po s2 nugget noise2 X2 x w2 ->
  q_mse nx (S n) s2 nugget noise2 X2 x w2 = q_mse nx n s nugget noise X x w - q_cov nx n s nugget noise X x w (X2 n) ws ^ 2 / v.
Proof.
  intros qr rcond condF HQ HR nx po nugget n s s2 noise noise2 X X2 y y2 m m2 E E2 EX SC ws B.
  exact (mse_step qr rcond condF HQ HR nx po nugget n s s2 noise noise2 X X2 y y2 m m2 E E2 EX SC ws B).
Qed.
Print Assumptions C122_error_update.
(** the process variance times the number of points grows by r^2 / v, and the new model predicts at the new input y - (nugget + noise) / v * r. *)
Theorem C122_process_variance_update : forall qr rcond condF, qr_contract qr -> rcond_contract rcond ->
  forall nx po nugget n s s2 noise noise2 X X2 y y2 m m2,
  krg_train qr rcond condF nx n po s nugget noise X y = Some m -> krg_train qr rcond condF nx (S n) po s2 nugget noise2 X2 y2 = Some m2 ->
  extends n (S n) noise X y noise2 X2 y2 -> same_correlation nx n s X (S n) s2 X2 ->
  forall ws, q_blup nx n po s nugget noise X (X2 n) ws ->
  let v := q_mse nx n s nugget noise X (X2 n) ws + (nugget + noise2 n) in let r := y2 n - predict_value m (X2 n) in
  p_sigma2 (m_par m2) * INR (S n) = p_sigma2 (m_par m) * INR n + r ^ 2 / v /\ predict_value m2 (X2 n) = y2 n - (nugget + noise2 n) / v * r.
Proof.
  intros qr rcond condF HQ HR nx po nugget n s s2 noise noise2 X X2 y y2 m m2 E E2 EX SC ws B. split.
  - exact (sigma2_step qr rcond condF HQ HR nx po nugget n s s2 noise noise2 X X2 y y2 m m2 E E2 EX SC ws B).
  - exact (at_new qr rcond condF HQ HR nx po nugget n s s2 noise noise2 X X2 y y2 m m2 E E2 EX SC ws B).
Qed.
Print Assumptions C122_process_variance_update.
(** With a constant trend all of it can be seen in the predictions: v1 and v2 are the predicted variances relative to the process variances; a prediction moves exactly
    where, and as much as, its relative variance shrinks. *)
Theorem C122_constant_trend : forall qr rcond condF, qr_contract qr -> rcond_contract rcond -> forall nx nugget n s s2 noise noise2 X X2 y y2 m m2,
  krg_train qr rcond condF nx n PConstant s nugget noise X y = Some m -> krg_train qr rcond condF nx (S n) PConstant s2 nugget noise2 X2 y2 = Some m2 ->
  extends n (S n) noise X y noise2 X2 y2 -> same_correlation nx n s X (S n) s2 X2 -> k_ok s nx -> k_ok s2 nx ->
  (forall i, (i < n)%nat -> 0 <= nugget + noise i) -> (forall i, (i < S n)%nat -> 0 <= nugget + noise2 i) ->
  p_sigma2 (m_par m) <> 0 -> p_sigma2 (m_par m2) <> 0 ->
  let v1 := fun x => predict_variance m x / p_sigma2 (m_par m) in let v2 := fun x => predict_variance m2 x / p_sigma2 (m_par m2) in
  let v := v1 (X2 n) + (nugget + noise2 n) in let r := y2 n - predict_value m (X2 n) in
  0 < v /\ (forall x, (predict_value m2 x - predict_value m x) ^ 2 = (v1 x - v2 x) * (r ^ 2 / v)) /\ v2 (X2 n) = (nugget + noise2 n) * v1 (X2 n) / v /\
  p_sigma2 (m_par m2) * INR (S n) = p_sigma2 (m_par m) * INR n + r ^ 2 / v /\ predict_value m2 (X2 n) = y2 n - (nugget + noise2 n) / v * r.
Proof. exact observable. Qed.
Print Assumptions C122_constant_trend.
(** a concrete pair of models with a surprising observation *)
Example C122_nonvacuous : let s2 := KStd SquarExp (rescaled SquarExp (fun _ => 1) (fun j => scale1 2 (fun a => Xa a j)) (fun j => scale1 3 (fun a => Xa a j))) in
  let yb := fun i => if Nat.eqb i 2 then 5 else ya i in
  exists m m2, krg_train gs_qr rcond01 cond0 1 2 PConstant sa 0 (fun _ => 0) Xa ya = Some m /\ krg_train gs_qr rcond01 cond0 1 3 PConstant s2 0 (fun _ => 0) Xa yb = Some m2 /\
  extends 2 3 (fun _ => 0) Xa ya (fun _ => 0) Xa yb /\ same_correlation 1 2 sa Xa 3 s2 Xa /\ k_ok sa 1 /\ k_ok s2 1 /\ yb 2%nat <> predict_value m (Xa 2%nat) /\
  p_sigma2 (m_par m) <> 0 /\ p_sigma2 (m_par m2) <> 0.
Proof.
  cbv zeta. set (r := rescaled _ _ _ _).
  assert (Pr : forall j, 0 < r j) by (intros j; unfold r, rescaled; pose proof (Krg_P2.scale1_pos 2 (fun a => Xa a j)) as A; pose proof (Krg_P2.scale1_pos 3 (fun a => Xa a j)) as B; apply Rmult_lt_0_compat; [lra|]; apply pow_lt; apply Rdiv_lt_0_compat; assumption).
  destruct (Xa_train 2) as [m E]; [lia|].
  set (yb := fun i : nat => if Nat.eqb i 2 then 5 else ya i).
  assert (E2 : exists m2, krg_train gs_qr rcond01 cond0 1 3 PConstant (KStd SquarExp r) 0 (fun _ => 0) Xa yb = Some m2).
  { apply train_gs; [lia|cbn; lia| |apply constant_regular; lia].
    destruct (t_distinct_pd SquarExp r 1 3 Xa 0 (fun _ => 0)) as [C EC]; [discriminate|intros; apply Pr|apply Xa_distinct; lia|intros; lra|]. exact (Tri_P.chol_pd 3 _ C (Krg_P.corr_matrix_sym _ _ _ _ _ _) (Tri_P.chol_sound _ _ _ EC)). }
  destruct E2 as [m2 E2]. exists m, m2. split; [exact E|]. split; [exact E2|].
  assert (EX : extends 2 3 (fun _ => 0) Xa ya (fun _ => 0) Xa yb).
  { split; [lia|]. intros i Hi. split; [reflexivity|]. split; [|reflexivity]. unfold yb. destruct (Nat.eqb_spec i 2); [lia|reflexivity]. }
  assert (SC : same_correlation 1 2 sa Xa 3 (KStd SquarExp r) Xa) by (apply rescaled_same; discriminate).
  assert (N : yb 2%nat <> predict_value m (Xa 2%nat)).
  { destruct (Xa_train 3) as [m3 E3]; [lia|]. rewrite <- (proj1 (same_theta_refuted m m3 E E3)). unfold yb, ya, Xa. cbn [Nat.eqb]. lra. }
  assert (S1 : p_sigma2 (m_par m) <> 0).
  { intros Z. apply (proj1 (sigma2_zero_iff _ _ _ _ _ _ _ _ _ _ _ _ gs_contract rcond01_contract E)) in Z. destruct Z as (b & Hb). pose proof (Hb 0%nat ltac:(lia)) as B0. pose proof (Hb 1%nat ltac:(lia)) as B1.
    unfold ya, Xa, q_trend, fvec in B0, B1. cbn in B0, B1. lra. }
  split; [exact EX|]. split; [exact SC|]. split; [split; [discriminate|intros; lra]|]. split; [split; [discriminate|intros; apply Rlt_le, Pr]|]. split; [exact N|]. split; [exact S1|].
  destruct (t_blup_all _ _ _ gs_contract rcond01_contract _ _ _ _ _ _ _ _ _ E) as (w & B).
  pose proof (sigma2_step _ _ _ gs_contract rcond01_contract 1 PConstant 0 2 sa (KStd SquarExp r) _ _ Xa Xa ya yb m m2 E E2 EX SC (w (Xa 2%nat)) (B (Xa 2%nat))) as Q.
  pose proof (vp _ _ _ gs_contract rcond01_contract 1 PConstant 0 2 sa (KStd SquarExp r) _ _ Xa Xa ya yb m m2 E E2 EX SC (w (Xa 2%nat)) (B (Xa 2%nat))) as P.
  pose proof (sigma2_nonneg _ _ _ _ _ _ _ _ _ (train_inv _ _ _ _ _ _ _ _ _ _ _ _ gs_contract rcond01_contract E)) as S0.
  intros Z. rewrite Z in Q. cbn [INR] in Q.
  set (q := (yb 2%nat - predict_value m (Xa 2%nat)) ^ 2) in *. assert (0 < q) by (unfold q; rewrite <- Rsqr_pow2; apply Rsqr_pos_lt; lra).
  pose proof (Rdiv_lt_0_compat q _ H P) as D. lra.
Qed.
