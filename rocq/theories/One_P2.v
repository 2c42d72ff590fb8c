(** Proofs for C122: statements about trained models. *)
From Coq Require Import Reals Arith Bool List Lia Lra.
From Verif Require Import RSum Mat Kernels_M Krg_M Krg_S Krg_P Krg_P2 Krg_P3 Krg_P8 Add_S Add_P Add_P2 One_S One_P.
Open Scope R_scope.
Lemma q_cov_ext nx nt s nugget noise X x w x' w1 w2 : (forall i, (i < nt)%nat -> w1 i = w2 i) -> q_cov nx nt s nugget noise X x w x' w1 = q_cov nx nt s nugget noise X x w x' w2.
Proof.
  intros E. unfold q_cov. f_equal. f_equal.
  - f_equal. apply dot_ext; [reflexivity|]. intros i _. apply mv_ext; [reflexivity|exact E].
  - apply dot_ext; [exact E|reflexivity].
Qed.
Lemma q_cov_self nx nt s nugget noise X x w : q_cov nx nt s nugget noise X x w x w = q_mse nx nt s nugget noise X x w.
Proof. unfold q_cov, q_mse, mse. rewrite kf_diag. ring. Qed.
Lemma mse_w_ext nt Rm r w w' : (forall i, (i < nt)%nat -> w i = w' i) -> mse nt Rm r w = mse nt Rm r w'.
Proof.
  intros E. unfold mse. f_equal. f_equal; [|f_equal]; apply dot_ext; try assumption; try reflexivity. intros i _. apply mv_ext; [reflexivity|exact E].
Qed.
Section One.
Variables (qr : nat -> nat -> mat -> mat * mat) (rcond : nat -> mat -> R) (condF : nat -> nat -> mat -> R).
Hypotheses (HQ : qr_contract qr) (HR : rcond_contract rcond).
Variables (nx : nat) (po : poly) (nugget : R) (n : nat) (s s2 : kspec) (noise noise2 : vec) (X X2 : nat -> vec) (y y2 : vec) (m m2 : model).
Hypotheses (E : krg_train qr rcond condF nx n po s nugget noise X y = Some m) (E2 : krg_train qr rcond condF nx (S n) po s2 nugget noise2 X2 y2 = Some m2).
Hypotheses (EX : extends n (S n) noise X y noise2 X2 y2) (SC : same_correlation nx n s X (S n) s2 X2).
Variable ws : vec.
Hypothesis Bs : q_blup nx n po s nugget noise X (X2 n) ws.
Let T := train_inv _ _ _ _ _ _ _ _ _ _ _ _ HQ HR E.
Let T2 := train_inv _ _ _ _ _ _ _ _ _ _ _ _ HQ HR E2.
Let v := q_mse nx n s nugget noise X (X2 n) ws + (nugget + noise2 n).
Let r := y2 n - predict_value m (X2 n).
Lemma ws_star i : (i < n)%nat -> ws i = wstar n (n_regr po nx) (m_par m) (rq nx n s X (X2 n)) (fvec po nx (xq n X (X2 n))) i.
Proof.
  apply q_blup_eq in Bs. exact (blup_unique n (n_regr po nx) _ _ (ynorm n y) (m_par m) (corr_matrix_sym _ _ _ _ _ _) (t_fit _ _ _ _ _ _ _ _ _ T) _ _ ws Bs i).
Qed.
Lemma v_star : v = mse n (corr_matrix s nx n (Xnorm n X) nugget noise) (rq nx n s X (X2 n)) (wstar n (n_regr po nx) (m_par m) (rq nx n s X (X2 n)) (fvec po nx (xq n X (X2 n)))) + (nugget + noise2 n).
Proof. unfold v. rewrite q_mse_eq. f_equal. apply mse_w_ext. exact ws_star. Qed.
Lemma vp : 0 < v.
Proof. rewrite v_star. destruct (mult nx po nugget n s noise X X2 y m T) as (mu & Hmu). exact (v_pos nx po nugget n s s2 noise noise2 X X2 y y2 m m2 T T2 EX SC mu Hmu). Qed.
Lemma value_step x w : q_blup nx n po s nugget noise X x w -> predict_value m2 x = predict_value m x + q_cov nx n s nugget noise X x w (X2 n) ws / v * r.
Proof.
  intros B. apply q_blup_eq in B. destruct (mult nx po nugget n s noise X X2 y m T) as (mu & Hmu).
  rewrite v_star, (q_cov_ext _ _ _ _ _ _ _ _ _ _ _ ws_star), (cov_eq nx po nugget n s noise X X2 m mu Hmu x w (proj1 B)).
  exact (one_value nx po nugget n s s2 noise noise2 X X2 y y2 m m2 T T2 EX SC mu Hmu x).
Qed.
Lemma mse_step x w w2 : q_blup nx n po s nugget noise X x w -> q_blup nx (S n) po s2 nugget noise2 X2 x w2 ->
  q_mse nx (S n) s2 nugget noise2 X2 x w2 = q_mse nx n s nugget noise X x w - q_cov nx n s nugget noise X x w (X2 n) ws ^ 2 / v.
Proof.
  intros B B2. apply q_blup_eq in B. apply q_blup_eq in B2. destruct (mult nx po nugget n s noise X X2 y m T) as (mu & Hmu).
  rewrite v_star, (q_cov_ext _ _ _ _ _ _ _ _ _ _ _ ws_star), (cov_eq nx po nugget n s noise X X2 m mu Hmu x w (proj1 B)), !q_mse_eq.
  exact (one_mse nx po nugget n s s2 noise noise2 X X2 y y2 m m2 T T2 EX SC mu Hmu x w w2 B B2).
Qed.
Lemma sigma2_step : p_sigma2 (m_par m2) * INR (S n) = p_sigma2 (m_par m) * INR n + r ^ 2 / v.
Proof.
  destruct (mult nx po nugget n s noise X X2 y m T) as (mu & Hmu). rewrite v_star.
  exact (one_sigma2 nx po nugget n s s2 noise noise2 X X2 y y2 m m2 T T2 EX SC mu Hmu).
Qed.
Lemma at_new : predict_value m2 (X2 n) = y2 n - (nugget + noise2 n) / v * r.
Proof. rewrite (value_step (X2 n) ws Bs), q_cov_self. pose proof vp as P. replace (q_mse nx n s nugget noise X (X2 n) ws) with (v - (nugget + noise2 n)) by (unfold v; ring). unfold r. field. lra. Qed.
Lemma change_squared x w w2 : q_blup nx n po s nugget noise X x w -> q_blup nx (S n) po s2 nugget noise2 X2 x w2 ->
  (predict_value m2 x - predict_value m x) ^ 2 = (q_mse nx n s nugget noise X x w - q_mse nx (S n) s2 nugget noise2 X2 x w2) * (r ^ 2 / v).
Proof. intros B B2. rewrite (value_step x w B), (mse_step x w w2 B B2). pose proof vp. field. lra. Qed.
End One.
Lemma observable qr rcond condF : qr_contract qr -> rcond_contract rcond -> forall nx nugget n s s2 noise noise2 X X2 y y2 m m2,
  krg_train qr rcond condF nx n PConstant s nugget noise X y = Some m -> krg_train qr rcond condF nx (S n) PConstant s2 nugget noise2 X2 y2 = Some m2 ->
  extends n (S n) noise X y noise2 X2 y2 -> same_correlation nx n s X (S n) s2 X2 -> k_ok s nx -> k_ok s2 nx ->
  (forall i, (i < n)%nat -> 0 <= nugget + noise i) -> (forall i, (i < S n)%nat -> 0 <= nugget + noise2 i) ->
  p_sigma2 (m_par m) <> 0 -> p_sigma2 (m_par m2) <> 0 ->
  let v1 := fun x => predict_variance m x / p_sigma2 (m_par m) in let v2 := fun x => predict_variance m2 x / p_sigma2 (m_par m2) in
  let v := v1 (X2 n) + (nugget + noise2 n) in let r := y2 n - predict_value m (X2 n) in
  0 < v /\ (forall x, (predict_value m2 x - predict_value m x) ^ 2 = (v1 x - v2 x) * (r ^ 2 / v)) /\ v2 (X2 n) = (nugget + noise2 n) * v1 (X2 n) / v /\
  p_sigma2 (m_par m2) * INR (S n) = p_sigma2 (m_par m) * INR n + r ^ 2 / v /\ predict_value m2 (X2 n) = y2 n - (nugget + noise2 n) / v * r.
Proof.
  intros HQ HR nx nugget n s s2 noise noise2 X X2 y y2 m m2 E E2 EX SC K K2 N N2 S1 S2 v1 v2 v r.
  destruct (t_blup_all qr rcond condF HQ HR _ _ _ _ _ _ _ _ _ E) as (w & B). destruct (t_blup_all qr rcond condF HQ HR _ _ _ _ _ _ _ _ _ E2) as (w2 & B2).
  assert (V1 : forall x, v1 x = q_mse nx n s nugget noise X x (w x)).
  { intros x. unfold v1. rewrite (t_variance_constant qr rcond condF HQ HR _ _ _ _ _ _ _ _ _ E K N x (w x) eq_refl (B x)). field. exact S1. }
  assert (V2 : forall x, v2 x = q_mse nx (S n) s2 nugget noise2 X2 x (w2 x)).
  { intros x. unfold v2. rewrite (t_variance_constant qr rcond condF HQ HR _ _ _ _ _ _ _ _ _ E2 K2 N2 x (w2 x) eq_refl (B2 x)). field. exact S2. }
  assert (V : v = q_mse nx n s nugget noise X (X2 n) (w (X2 n)) + (nugget + noise2 n)) by (unfold v; rewrite V1; reflexivity).
  pose proof (vp qr rcond condF HQ HR nx PConstant nugget n s s2 noise noise2 X X2 y y2 m m2 E E2 EX SC (w (X2 n)) (B (X2 n))) as P.
  rewrite V. split; [exact P|]. split; [|split; [|split]].
  - intros x. rewrite V1, V2. exact (change_squared qr rcond condF HQ HR nx PConstant nugget n s s2 noise noise2 X X2 y y2 m m2 E E2 EX SC (w (X2 n)) (B (X2 n)) x (w x) (w2 x) (B x) (B2 x)).
  - rewrite V1, V2. rewrite (mse_step qr rcond condF HQ HR nx PConstant nugget n s s2 noise noise2 X X2 y y2 m m2 E E2 EX SC (w (X2 n)) (B (X2 n)) (X2 n) (w (X2 n)) (w2 (X2 n)) (B (X2 n)) (B2 (X2 n))), q_cov_self. field. lra.
  - exact (sigma2_step qr rcond condF HQ HR nx PConstant nugget n s s2 noise noise2 X X2 y y2 m m2 E E2 EX SC (w (X2 n)) (B (X2 n))).
  - exact (at_new qr rcond condF HQ HR nx PConstant nugget n s s2 noise noise2 X X2 y y2 m m2 E E2 EX SC (w (X2 n)) (B (X2 n))).
Qed.
