(** Proofs for C119: Kriging models with more data - rescaled hyperparameters, variances, and the refutation. *)
From Coq Require Import Reals Arith Bool List Lia Lra FunctionalExtensionality.
From Verif Require Import RSum Mat Tri_M Tri_P Kernels_M Krg_M Krg_S Krg_P Krg_P2 Krg_P3 Krg_P4 Krg_P8 Trend_T Krg_T Krg_Qr Lin_P Add_S Add_P Add_P2.
Open Scope R_scope.
Lemma kf_products c t1 t2 nx (a1 b1 a2 b2 : vec) : c <> ActExp ->
  (forall j, (j < nx)%nat -> t1 j * comp_dist c (fun j => a1 j - b1 j) j = t2 j * comp_dist c (fun j => a2 j - b2 j) j) ->
  kf (KStd c t1) nx a1 b1 = kf (KStd c t2) nx a2 b2.
Proof.
  intros N H. unfold kf, kd, kernel. destruct c; try congruence; unfold k_exp, k_m52, k_m32; cbv zeta.
  - f_equal. f_equal. apply rsum_ext. exact H.
  - f_equal. f_equal. apply rsum_ext. exact H.
  - rewrite (rsum_ext _ _ _ H). f_equal. apply rprod_ext. intros j Hj. rewrite (H j Hj). reflexivity.
  - rewrite (rsum_ext _ _ _ H). f_equal. apply rprod_ext. intros j Hj. rewrite (H j Hj). reflexivity.
Qed.
Lemma rescaled_same c theta nx n X N X2 : c <> ActExp ->
  same_correlation nx n (KStd c theta) X N (KStd c (rescaled c theta (fun j => scale1 n (fun a => X a j)) (fun j => scale1 N (fun a => X2 a j)))) X2.
Proof.
  intros Hc a b. apply kf_products; [exact Hc|]. intros j Hj. unfold q_std.
  pose proof (scale1_pos n (fun a => X a j)) as P. pose proof (scale1_pos N (fun a => X2 a j)) as P2.
  set (s := scale1 n (fun a => X a j)) in *. set (s2 := scale1 N (fun a => X2 a j)) in *.
  assert (A : forall u z, 0 < u -> Rabs (z / u) = Rabs z / u).
  { intros u z U. unfold Rdiv. rewrite Rabs_mult, (Rabs_right (/ u)); [reflexivity|]. apply Rle_ge, Rlt_le, Rinv_0_lt_compat, U. }
  assert (C : forall (g1 g2 : vec), g1 j = g2 j -> comp_dist c g1 j = comp_dist c g2 j) by (intros g1 g2 G; unfold comp_dist; destruct c; rewrite ?G; reflexivity).
  rewrite (C (fun j0 => (a j0 - mean N (fun a0 => X2 a0 j0)) / scale1 N (fun a0 => X2 a0 j0) - (b j0 - mean N (fun a0 => X2 a0 j0)) / scale1 N (fun a0 => X2 a0 j0)) (fun j => (a j - b j) / s2)) by (cbn beta; fold s2; field; lra).
  rewrite (C (fun j0 => (a j0 - mean n (fun a0 => X a0 j0)) / scale1 n (fun a0 => X a0 j0) - (b j0 - mean n (fun a0 => X a0 j0)) / scale1 n (fun a0 => X a0 j0)) (fun j => (a j - b j) / s)) by (cbn beta; fold s; field; lra).
  unfold rescaled. fold s s2. destruct c; try congruence; cbn [comp_dist]; rewrite ?A by assumption; field; lra.
Qed.
Section T.
Variables (qr : nat -> nat -> mat -> mat * mat) (rcond : nat -> mat -> R) (condF : nat -> nat -> mat -> R).
Hypotheses (HQ : qr_contract qr) (HR : rcond_contract rcond).
Variables (nx : nat) (po : poly) (nugget : R) (n N : nat) (s s2 : kspec) (noise noise2 : vec) (X X2 : nat -> vec) (y y2 : vec) (m m2 : model).
Hypotheses (E : krg_train qr rcond condF nx n po s nugget noise X y = Some m) (E2 : krg_train qr rcond condF nx N po s2 nugget noise2 X2 y2 = Some m2).
Hypotheses (EX : extends n N noise X y noise2 X2 y2) (SC : same_correlation nx n s X N s2 X2).
Let T := train_inv _ _ _ _ _ _ _ _ _ _ _ _ HQ HR E.
Let T2 := train_inv _ _ _ _ _ _ _ _ _ _ _ _ HQ HR E2.
Definition consistent : Prop := forall i, (n <= i < N)%nat -> y2 i = predict_value m (X2 i).
Lemma more_value : consistent -> forall x, predict_value m2 x = predict_value m x.
Proof. exact (same_value nx po nugget n N s s2 noise noise2 X X2 y y2 m m2 T T2 EX SC). Qed.
Lemma more_sigma2 : consistent -> p_sigma2 (m_par m2) * INR N = p_sigma2 (m_par m) * INR n.
Proof. exact (same_sigma2 nx po nugget n N s s2 noise noise2 X X2 y y2 m m2 T T2 EX SC). Qed.
Lemma more_mse x w w2 : q_blup nx n po s nugget noise X x w -> q_blup nx N po s2 nugget noise2 X2 x w2 -> q_mse nx N s2 nugget noise2 X2 x w2 <= q_mse nx n s nugget noise X x w.
Proof. exact (mse_more nx po nugget n N s s2 noise noise2 X X2 y y2 EX SC x w w2). Qed.
Hypotheses (K : k_ok s nx) (K2 : k_ok s2 nx) (Nn : forall i, (i < n)%nat -> 0 <= nugget + noise i) (Nn2 : forall i, (i < N)%nat -> 0 <= nugget + noise2 i) (Po : po = PConstant).
Lemma more_relative_variance x : predict_variance m2 x * p_sigma2 (m_par m) <= predict_variance m x * p_sigma2 (m_par m2).
Proof.
  destruct (t_blup_all qr rcond condF HQ HR _ _ _ _ _ _ _ _ _ E) as [w B]. destruct (t_blup_all qr rcond condF HQ HR _ _ _ _ _ _ _ _ _ E2) as [w2 B2].
  rewrite (t_variance_constant qr rcond condF HQ HR _ _ _ _ _ _ _ _ _ E K Nn x (w x) Po (B x)), (t_variance_constant qr rcond condF HQ HR _ _ _ _ _ _ _ _ _ E2 K2 Nn2 x (w2 x) Po (B2 x)).
  pose proof (more_mse x _ _ (B x) (B2 x)) as M. pose proof (sigma2_nonneg _ _ _ _ _ _ _ _ _ T) as S. pose proof (sigma2_nonneg _ _ _ _ _ _ _ _ _ T2) as S2.
  assert (P : 0 <= p_sigma2 (m_par m) * p_sigma2 (m_par m2)) by (apply Rmult_le_pos; assumption).
  apply Rmult_le_compat_l with (r := p_sigma2 (m_par m) * p_sigma2 (m_par m2)) in M; [|exact P]. nra.
Qed.
Lemma more_variance : consistent -> forall x, predict_variance m2 x <= INR n / INR N * predict_variance m x.
Proof.
  intros CO x. destruct (t_blup_all qr rcond condF HQ HR _ _ _ _ _ _ _ _ _ E) as [w B]. destruct (t_blup_all qr rcond condF HQ HR _ _ _ _ _ _ _ _ _ E2) as [w2 B2].
  rewrite (t_variance_constant qr rcond condF HQ HR _ _ _ _ _ _ _ _ _ E K Nn x (w x) Po (B x)), (t_variance_constant qr rcond condF HQ HR _ _ _ _ _ _ _ _ _ E2 K2 Nn2 x (w2 x) Po (B2 x)).
  pose proof (more_mse x _ _ (B x) (B2 x)) as M. pose proof (sigma2_nonneg _ _ _ _ _ _ _ _ _ T2) as S2. pose proof (more_sigma2 CO) as Q.
  assert (HN : 0 < INR N) by (apply lt_0_INR; pose proof (t_nt _ _ _ _ _ _ _ _ _ T2); lia).
  replace (INR n / INR N * (p_sigma2 (m_par m) * q_mse nx n s nugget noise X x (w x))) with (p_sigma2 (m_par m2) * q_mse nx n s nugget noise X x (w x)).
  - apply Rmult_le_compat_l; assumption.
  - replace (p_sigma2 (m_par m2)) with (p_sigma2 (m_par m) * INR n / INR N) by (rewrite <- Q; field; lra). field. lra.
Qed.
End T.
(** ** the refutation: the same hyperparameters, with inputs standardised anew *)
Definition Xa : nat -> vec := fun i _ => if Nat.eqb i 0 then 0 else if Nat.eqb i 1 then 2 else 1.
Definition ya : vec := fun i => Xa i 0%nat.
Definition sa : kspec := KStd SquarExp (fun _ => 1).
Lemma sqrt_zero_case v : 0 < v -> sqrt v <> 0.
Proof. intros H. pose proof (sqrt_lt_R0 _ H). lra. Qed.
Lemma scale_2 : scale1 2 (fun a => Xa a 0%nat) = sqrt 2.
Proof.
  assert (S : std1 2 (fun a => Xa a 0%nat) = sqrt 2) by (unfold std1; f_equal; unfold mean, Xa; cbn [rsum Nat.eqb]; replace (INR 2) with 2 by (cbn; ring); field).
  unfold scale1. rewrite S. destruct (Req_EM_T (sqrt 2) 0) as [Z|]; [exfalso; revert Z; apply sqrt_zero_case; lra|reflexivity].
Qed.
Lemma scale_3 : scale1 3 (fun a => Xa a 0%nat) = 1.
Proof.
  assert (S : std1 3 (fun a => Xa a 0%nat) = 1).
  { unfold std1. rewrite <- sqrt_1 at 2. f_equal. unfold mean, Xa. cbn [rsum Nat.eqb]. replace (INR 3) with 3 by (cbn; ring). field. }
  unfold scale1. rewrite S. destruct (Req_EM_T 1 0); lra.
Qed.
Lemma kf_2 a b : kf sa 1 (xq 2 Xa a) (xq 2 Xa b) = exp (- ((a 0%nat - b 0%nat) ^ 2 / 2)).
Proof.
  unfold kf, kd, sa, kernel, k_exp, comp_dist, xq. cbv zeta. cbn [rsum]. rewrite scale_2. f_equal. f_equal.
  pose proof (sqrt_def 2 ltac:(lra)) as Q. pose proof (sqrt_zero_case 2 ltac:(lra)) as Z. rewrite <- Q at 3. field. exact Z.
Qed.
Lemma kf_3 a b : kf sa 1 (xq 3 Xa a) (xq 3 Xa b) = exp (- (a 0%nat - b 0%nat) ^ 2).
Proof. unfold kf, kd, sa, kernel, k_exp, comp_dist, xq. cbv zeta. cbn [rsum]. rewrite scale_3. f_equal. field. Qed.
Lemma Xa_distinct nt : (nt <= 3)%nat -> forall i j, (i < nt)%nat -> (j < nt)%nat -> i <> j -> ~ (forall k, (k < 1)%nat -> Xa i k = Xa j k).
Proof. intros H i j Hi Hj N Q. specialize (Q 0%nat ltac:(lia)). unfold Xa in Q. destruct i as [|[|[|i]]]; try lia; destruct j as [|[|[|j]]]; try lia; cbn [Nat.eqb] in Q; lra. Qed.
Lemma Xa_train nt : (2 <= nt <= 3)%nat -> exists m, krg_train gs_qr rcond01 cond0 1 nt PConstant sa 0 (fun _ => 0) Xa ya = Some m.
Proof.
  intros H. apply train_gs; [lia|cbn; lia| |apply constant_regular; lia].
  destruct (t_distinct_pd SquarExp (fun _ => 1) 1 nt Xa 0 (fun _ => 0)) as [C EC]; [discriminate|intros; lra|apply Xa_distinct; lia|intros; lra|]. exact (chol_pd nt _ C (corr_matrix_sym _ _ _ _ _ _) (chol_sound _ _ _ EC)).
Qed.
Lemma const_poly (c : R) : polynomial PConstant 1 (fun _ => c).
Proof. apply C87_trend_span. exists (fun _ => c). intros x. cbn. ring. Qed.
Lemma poly_const q : polynomial PConstant 1 q -> exists c, forall x, q x = c.
Proof. intros P. destruct (proj1 (C87_trend_span PConstant 1 q) P) as [w H]. exists (w 0%nat). intros x. rewrite H. cbn. ring. Qed.
Definition ta (r : R) : vec := fun i => if Nat.eqb i 0 then - / (1 - r) else if Nat.eqb i 1 then / (1 - r) else 0.
Lemma value_2 m : krg_train gs_qr rcond01 cond0 1 2 PConstant sa 0 (fun _ => 0) Xa ya = Some m -> forall x,
  predict_value m x = 1 + / (1 - exp (- (2))) * (exp (- ((x 0%nat - 2) ^ 2 / 2)) - exp (- ((x 0%nat - 0) ^ 2 / 2))).
Proof.
  intros E x. pose proof (train_inv _ _ _ _ _ _ _ _ _ _ _ _ gs_contract rcond01_contract E) as T.
  assert (L : exp (- (2)) < 1) by (rewrite <- exp_0; apply exp_increasing; lra).
  rewrite (dual_value 1 2 PConstant sa 0 (fun _ => 0) Xa ya m T (fun _ => 1) (ta (exp (- (2)))) (const_poly 1)).
  - cbn [rsum]. rewrite !kf_2. unfold ta, Xa. cbn [Nat.eqb]. ring.
  - intros q P. destruct (poly_const q P) as [c H]. cbn [rsum]. rewrite !H. unfold ta. cbn [Nat.eqb]. ring.
  - intros i Hi. cbn [rsum]. rewrite !kf_2. unfold ta, ya, Xa. destruct i as [|[|i]]; [| |lia]; cbn [Nat.eqb].
    + replace (- ((0 - 0) ^ 2 / 2)) with 0 by field. replace (- ((0 - 2) ^ 2 / 2)) with (- (2)) by field. rewrite exp_0. field. lra.
    + replace (- ((2 - 2) ^ 2 / 2)) with 0 by field. replace (- ((2 - 0) ^ 2 / 2)) with (- (2)) by field. rewrite exp_0. field. lra.
Qed.
Lemma value_3 m : krg_train gs_qr rcond01 cond0 1 3 PConstant sa 0 (fun _ => 0) Xa ya = Some m -> forall x,
  predict_value m x = 1 + / (1 - exp (- (4))) * (exp (- (x 0%nat - 2) ^ 2) - exp (- (x 0%nat - 0) ^ 2)).
Proof.
  intros E x. pose proof (train_inv _ _ _ _ _ _ _ _ _ _ _ _ gs_contract rcond01_contract E) as T.
  assert (L : exp (- (4)) < 1) by (rewrite <- exp_0; apply exp_increasing; lra).
  rewrite (dual_value 1 3 PConstant sa 0 (fun _ => 0) Xa ya m T (fun _ => 1) (ta (exp (- (4)))) (const_poly 1)).
  - cbn [rsum]. rewrite !kf_3. unfold ta, Xa. cbn [Nat.eqb]. ring.
  - intros q P. destruct (poly_const q P) as [c H]. cbn [rsum]. rewrite !H. unfold ta. cbn [Nat.eqb]. ring.
  - intros i Hi. cbn [rsum]. rewrite !kf_3. unfold ta, ya, Xa. destruct i as [|[|[|i]]]; [| | |lia]; cbn [Nat.eqb].
    + replace (- (0 - 0) ^ 2) with 0 by ring. replace (- (0 - 2) ^ 2) with (- (4)) by ring. rewrite exp_0. field. lra.
    + replace (- (2 - 2) ^ 2) with 0 by ring. replace (- (2 - 0) ^ 2) with (- (4)) by ring. rewrite exp_0. field. lra.
    + replace ((1 - 0) ^ 2) with 1 by ring. replace ((1 - 2) ^ 2) with 1 by ring. ring.
Qed.
Lemma exp_pow (z : R) k : exp (INR k * z) = exp z ^ k.
Proof. induction k; [cbn [pow INR]; rewrite Rmult_0_l; apply exp_0|]. rewrite S_INR. replace ((INR k + 1) * z) with (z + INR k * z) by ring. rewrite exp_plus, IHk. reflexivity. Qed.
Lemma same_theta_refuted m m2 : krg_train gs_qr rcond01 cond0 1 2 PConstant sa 0 (fun _ => 0) Xa ya = Some m -> krg_train gs_qr rcond01 cond0 1 3 PConstant sa 0 (fun _ => 0) Xa ya = Some m2 ->
  ya 2%nat = predict_value m (Xa 2%nat) /\ predict_value m2 (fun _ => 3) <> predict_value m (fun _ => 3).
Proof.
  intros E E2. rewrite (value_2 m E), (value_2 m E), (value_3 m2 E2). split.
  - unfold ya, Xa. cbn [Nat.eqb]. replace ((1 - 2) ^ 2) with 1 by ring. replace ((1 - 0) ^ 2) with 1 by ring. ring.
  - cbn beta. set (u := exp (- (1 / 2))).
    assert (U : 0 < u < 1) by (pose proof (exp_increasing (- (1 / 2)) 0 ltac:(lra)) as I; rewrite exp_0 in I; split; [apply exp_pos|exact I]).
    replace (exp (- ((3 - 2) ^ 2 / 2))) with u by (unfold u; f_equal; field).
    replace (exp (- ((3 - 0) ^ 2 / 2))) with (u ^ 9) by (unfold u; rewrite <- exp_pow; f_equal; cbn [INR]; field).
    replace (exp (- (3 - 2) ^ 2)) with (u ^ 2) by (unfold u; rewrite <- exp_pow; f_equal; cbn [INR]; field).
    replace (exp (- (3 - 0) ^ 2)) with (u ^ 18) by (unfold u; rewrite <- exp_pow; f_equal; cbn [INR]; field).
    replace (exp (- (2))) with (u ^ 4) by (unfold u; rewrite <- exp_pow; f_equal; cbn [INR]; field).
    replace (exp (- (4))) with (u ^ 8) by (unfold u; rewrite <- exp_pow; f_equal; cbn [INR]; field).
    assert (P : forall k, (0 < k)%nat -> 0 < u ^ k < 1) by (intros k Hk; split; [apply pow_lt; lra|apply pow_lt_1_compat; [lra|exact Hk]]).
    pose proof (P 4%nat ltac:(lia)) as P4. pose proof (P 8%nat ltac:(lia)) as P8.
    replace (/ (1 - u ^ 8) * (u ^ 2 - u ^ 18)) with (u ^ 2 * (1 + u ^ 8)) by (field; lra).
    replace (/ (1 - u ^ 4) * (u - u ^ 9)) with (u * (1 + u ^ 4)) by (field; lra).
    assert (Q : u ^ 2 * (1 + u ^ 8) < u * (1 + u ^ 4)); [|apply Rlt_not_eq; lra]. replace (u ^ 8) with (u ^ 4 * u ^ 4) by ring. replace (u ^ 2) with (u * u) by ring. set (v := u ^ 4) in *.
    assert (v * v < v) by nra. assert (u * u < u) by nra. apply Rlt_trans with (u * (1 + v * v)); [apply Rmult_lt_compat_r; nra|apply Rmult_lt_compat_l; lra].
Qed.
