From Coq Require Import Reals Arith Bool List Lia Lra FunctionalExtensionality.
From Coquelicot Require Import Coquelicot.
From Verif Require Import RSum Mat Psd Psd2 Tri_M Tri_P Kernels_M Kernels_P Kernels_P2 Kernels_P3 Krg_M Krg_S Krg_P Krg_P2 Krg_P3 Krg_P4 Krg_P7 Krg_Qr.
Import ListNotations.
Open Scope list_scope.
Open Scope R_scope.

(** ** sigma2 vanishes only when the data follow the trend exactly *)
Section Pos.
Variables (nx nt : nat) (po : poly) (s : kspec) (nugget : R) (noise : vec) (X : nat -> vec) (y : vec) (m : model).
Hypothesis T : trained nx nt po s nugget noise X y m.
Lemma sigma2_pos : (forall b : vec, exists i, (i < nt)%nat /\ ynorm nt y i <> mv (n_regr po nx) (Fmat po nx nt X) b i) -> 0 < p_sigma2 (m_par m).
Proof.
  intros H. destruct (Rle_lt_or_eq_dec _ _ (sigma2_nonneg nx nt po s nugget noise X y m T)) as [P|Z]; [exact P|]. exfalso.
  destruct (H (p_beta (m_par m))) as (i & Hi & Ne). apply Ne. rewrite (t_s2 _ _ _ _ _ _ _ _ _ T) in Z.
  set (rho := rho_of nt (n_regr po nx) (ynorm nt y) (m_par m)) in *.
  assert (D : dot nt rho rho = 0).
  { symmetry in Z. apply Rmult_integral in Z. destruct Z as [Z|Z]; [|exfalso; apply (pow_nonzero (scale1 nt y) 2 (scale1_nz nt y)); exact Z].
    unfold Rdiv in Z. apply Rmult_integral in Z. destruct Z as [Z|Z]; [exact Z|]. exfalso. apply (Rinv_neq_0_compat (INR nt)); [|exact Z]. apply not_0_INR. pose proof (t_nt _ _ _ _ _ _ _ _ _ T). lia. }
  pose proof (t_fit _ _ _ _ _ _ _ _ _ T) as O. apply Rminus_diag_uniq.
  rewrite <- (R_gamma nt (n_regr po nx) _ _ (ynorm nt y) (m_par m) (corr_matrix_sym _ _ _ _ _ _) O i Hi).
  assert (Gz : forall k, (k < nt)%nat -> p_gamma (m_par m) k = 0).
  { apply (upper_inj nt (tr (p_C (m_par m))) (chol_upper_tr _ _ _ (fo_C _ _ _ _ _ _ O)) (chol_diag_tr _ _ _ (fo_C _ _ _ _ _ _ O))). intros k Hk. rewrite (fo_gamma _ _ _ _ _ _ O k Hk). apply (dot_self_zero nt rho D k Hk). }
  apply mv_zero. exact Gz.
Qed.
(** the error the code makes when the trend has two coefficients *)
Lemma variance_two x w : n_regr po nx = 2%nat -> k_ok s nx -> (forall i, (i < nt)%nat -> 0 <= nugget + noise i) ->
  blup nt (n_regr po nx) (corr_matrix s nx nt (Xnorm nt X) nugget noise) (Fmat po nx nt X) (rq nx nt s X x) (fvec po nx (xq nt X x)) w ->
  let b := u_rhs m x in let G := p_G (m_par m) in
  0 < p_sigma2 (m_par m) -> G 0%nat 1%nat * b 0%nat <> 0 -> G 0%nat 1%nat * b 0%nat <> 2 * b 1%nat * G 0%nat 0%nat ->
  predict_variance m x <> p_sigma2 (m_par m) * mse nt (corr_matrix s nx nt (Xnorm nt X) nugget noise) (rq nx nt s X x) w.
Proof.
  intros Ep K Nn B. cbv zeta. intros S2 H1 H2. rewrite (blup_mse nx nt po s nugget noise X y m T x w B). rewrite (variance_eq nx nt po s nugget noise X y m T K Nn). cbv zeta. rewrite Ep. cbn [rsum fsub]. unfold dot at 3. cbn [rsum].
  unfold upd. cbn [Nat.eqb]. unfold tr. cbn [rsum Nat.eqb].
  pose proof (fo_D _ _ _ _ _ _ (t_fit _ _ _ _ _ _ _ _ _ T)) as DG. rewrite Ep in DG. pose proof (DG 0%nat ltac:(lia)) as D0. pose proof (DG 1%nat ltac:(lia)) as D1.
  set (b0 := u_rhs m x 0%nat) in *. set (b1 := u_rhs m x 1%nat) in *. set (g00 := p_G (m_par m) 0%nat 0%nat) in *. set (g01 := p_G (m_par m) 0%nat 1%nat) in *. set (g11 := p_G (m_par m) 1%nat 1%nat) in *.
  intros E. apply Rmult_eq_reg_l in E; [|lra].
  assert (Q : (b1 / g11) ^ 2 = ((b1 - g01 * (b0 / g00)) / g11) ^ 2) by (cbn [pow] in *; lra).
  assert (Q2 : b1 ^ 2 = (b1 - g01 * (b0 / g00)) ^ 2).
  { apply (f_equal (fun z => z * g11 ^ 2)) in Q. replace ((b1 / g11) ^ 2 * g11 ^ 2) with (b1 ^ 2) in Q by (field; exact D1). replace (((b1 - g01 * (b0 / g00)) / g11) ^ 2 * g11 ^ 2) with ((b1 - g01 * (b0 / g00)) ^ 2) in Q by (field; split; assumption). exact Q. }
  assert (Q3 : (g01 * b0) * (g01 * b0 - 2 * b1 * g00) = 0).
  { apply (f_equal (fun z => z * g00 ^ 2)) in Q2. replace ((b1 - g01 * (b0 / g00)) ^ 2 * g00 ^ 2) with ((b1 * g00 - g01 * b0) ^ 2) in Q2 by (field; assumption). cbn [pow] in Q2. lra. }
  apply Rmult_integral in Q3. destruct Q3 as [Q3|Q3]; [apply H1; exact Q3|apply H2; lra].
Qed.
(** reading G and u_rhs off solutions of linear systems with R *)
Lemma G_row z j : (forall i, (i < nt)%nat -> mv nt (corr_matrix s nx nt (Xnorm nt X) nugget noise) z i = 1) -> (j < n_regr po nx)%nat ->
  p_G (m_par m) 0%nat 0%nat * p_G (m_par m) 0%nat j = dot nt z (fun i => Fmat po nx nt X i j).
Proof.
  intros Hz Hj. pose proof (t_fit _ _ _ _ _ _ _ _ _ T) as O. pose proof (n_regr_pos po nx) as P0.
  pose proof (Bm_form nx nt po s nugget noise X y m T j 0%nat Hj P0) as E.
  assert (E2 : mm (n_regr po nx) (tr (p_G (m_par m))) (p_G (m_par m)) j 0%nat = p_G (m_par m) 0%nat 0%nat * p_G (m_par m) 0%nat j).
  { unfold mm, tr. rewrite (rsum_ext _ _ (fun k => if Nat.eqb k 0 then p_G (m_par m) 0%nat 0%nat * p_G (m_par m) 0%nat j else 0)).
    - apply (rsum_single (n_regr po nx) (fun _ => p_G (m_par m) 0%nat 0%nat * p_G (m_par m) 0%nat j) 0%nat P0).
    - intros k Hk. destruct (Nat.eqb_spec k 0) as [-> | N]; [ring|]. rewrite (fo_G _ _ _ _ _ _ O k 0%nat Hk) by lia. ring. }
  rewrite <- E2, <- E. unfold Bm, dot. apply rsum_ext. intros i Hi. rewrite Rmult_comm. f_equal.
  apply (mpd_unique nt (corr_matrix s nx nt (Xnorm nt X) nugget noise) _ z (chol_pd _ _ _ (corr_matrix_sym _ _ _ _ _ _) (fo_C _ _ _ _ _ _ O))); [|exact Hi].
  intros k Hk. rewrite Hz by exact Hk. unfold inv_k. rewrite (chol_solve nt _ _ _ (corr_matrix_sym _ _ _ _ _ _) (fo_C _ _ _ _ _ _ O) k Hk). apply fvec_0.
Qed.
Lemma u_row g x j : (forall i, (i < nt)%nat -> mv nt (corr_matrix s nx nt (Xnorm nt X) nugget noise) g i = rq nx nt s X x i) -> (j < n_regr po nx)%nat ->
  u_rhs m x j = dot nt g (fun i => Fmat po nx nt X i j) - fvec po nx (xq nt X x) j.
Proof.
  intros Hg Hj. pose proof (t_fit _ _ _ _ _ _ _ _ _ T) as O. rewrite (u_rhs_eq nx nt po s nugget noise X y m T). f_equal. rewrite <- (whiten_F nx nt po s nugget noise X y m T).
  rewrite (whiten nx nt po s nugget noise X y m T), dot_sym, <- (whiten nx nt po s nugget noise X y m T), dot_sym. apply dot_ext; [|reflexivity]. intros i Hi.
  apply (mpd_unique nt (corr_matrix s nx nt (Xnorm nt X) nugget noise) _ g (chol_pd _ _ _ (corr_matrix_sym _ _ _ _ _ _) (fo_C _ _ _ _ _ _ O))); [|exact Hi].
  intros k Hk. rewrite Hg by exact Hk. unfold inv_k. apply (chol_solve nt _ _ _ (corr_matrix_sym _ _ _ _ _ _) (fo_C _ _ _ _ _ _ O) k Hk).
Qed.
End Pos.
(** ** linear trend: three points 0, 11, 13, absolute exponential kernel, theta = 7 ln 2 *)
Definition Xw : nat -> vec := fun i _ => if Nat.eqb i 0 then 0 else if Nat.eqb i 1 then 11 else 13.
Definition yw : vec := fun i => if Nat.eqb i 0 then 1 else 0.
Definition sw : kspec := KStd AbsExp (fun _ => 7 * ln 2).
Lemma mean_w : mean 3 (fun a => Xw a 0%nat) = 8. Proof. unfold mean, Xw. cbn. lra. Qed.
Lemma sqrt_square_eq a q : 0 <= a -> q = a * a -> sqrt q = a. Proof. intros H ->. apply sqrt_square. exact H. Qed.
Lemma scale_w : scale1 3 (fun a => Xw a 0%nat) = 7.
Proof.
  unfold scale1. assert (E : std1 3 (fun a => Xw a 0%nat) = 7). { unfold std1. apply sqrt_square_eq; [lra|]. cbn [rsum]. rewrite mean_w. unfold Xw. cbn [Nat.eqb]. cbn. lra. }
  rewrite E. destruct (Req_EM_T 7 0); lra.
Qed.
Definition fz (i : nat) : R := if Nat.eqb i 0 then -8/7 else if Nat.eqb i 1 then 3/7 else 5/7.
Lemma Xn_w i : (i < 3)%nat -> Xnorm 3 Xw i 0%nat = fz i.
Proof. intros H. unfold Xnorm. rewrite mean_w, scale_w. unfold fz. destruct i as [|[|[|i]]]; unfold Xw; cbn [Nat.eqb]; try lra; lia. Qed.
Lemma kf_w n (u v : vec) : Rabs (u 0%nat - v 0%nat) = INR n / 7 -> kf sw 1 u v = (/ 2) ^ n.
Proof.
  intros E. unfold kf, kd, sw, kernel, k_exp, comp_dist. cbn [rsum]. rewrite E. replace (- (0 + 7 * ln 2 * (INR n / 7))) with (INR n * ln (/ 2)) by (rewrite ln_Rinv by lra; field). rewrite <- Rpower_pow by lra. reflexivity.
Qed.
Ltac absr := match goal with |- Rabs ?e = _ => first [rewrite (Rabs_right e) by lra | rewrite (Rabs_left e) by lra]; lra end.
Definition a11 := (/ 2) ^ 11.
Lemma a11_v : a11 = 1 / 2048. Proof. unfold a11. rewrite <- Rinv_pow by lra. replace (2 ^ 11) with 2048 by ring. lra. Qed.
Lemma INR_lit (n : nat) z : IZR (Z.of_nat n) = z -> INR n = z. Proof. rewrite INR_IZR_INZ. auto. Qed.
Lemma R_w i j : (i < 3)%nat -> (j < 3)%nat -> corr_matrix sw 1 3 (Xnorm 3 Xw) 0 (fun _ => 0) i j =
  if Nat.eqb i j then 1 else if Nat.eqb (i + j) 1 then 1 / 2048 else if Nat.eqb (i + j) 2 then 1 / 8192 else 1 / 4.
Proof.
  assert (P13 : (/ 2) ^ 13 = 1 / 8192) by (rewrite <- Rinv_pow by lra; replace (2 ^ 13) with 8192 by ring; lra). assert (P2 : (/ 2) ^ 2 = 1 / 4) by (rewrite <- Rinv_pow by lra; lra). pose proof a11_v as P11. unfold a11 in P11.
  intros Hi Hj. rewrite corr_matrix_spec by assumption. destruct i as [|[|[|i]]]; try lia; destruct j as [|[|[|j]]]; try lia; cbn [Nat.eqb Nat.add]; try lra.
  - rewrite (kf_w 11); [exact P11|]. rewrite !Xn_w by lia. unfold fz. cbn [Nat.eqb]. rewrite (INR_lit 11 11) by reflexivity. absr.
  - rewrite (kf_w 13); [exact P13|]. rewrite !Xn_w by lia. unfold fz. cbn [Nat.eqb]. rewrite (INR_lit 13 13) by reflexivity. absr.
  - rewrite (kf_w 11); [exact P11|]. rewrite !Xn_w by lia. unfold fz. cbn [Nat.eqb]. rewrite (INR_lit 11 11) by reflexivity. absr.
  - rewrite (kf_w 2); [exact P2|]. rewrite !Xn_w by lia. unfold fz. cbn [Nat.eqb]. rewrite (INR_lit 2 2) by reflexivity. absr.
  - rewrite (kf_w 13); [exact P13|]. rewrite !Xn_w by lia. unfold fz. cbn [Nat.eqb]. rewrite (INR_lit 13 13) by reflexivity. absr.
  - rewrite (kf_w 2); [exact P2|]. rewrite !Xn_w by lia. unfold fz. cbn [Nat.eqb]. rewrite (INR_lit 2 2) by reflexivity. absr.
Qed.
Lemma xq_w : xq 3 Xw (fun _ => 12) 0%nat = 4 / 7. Proof. unfold xq. rewrite mean_w, scale_w. lra. Qed.
Lemma r_w i : (i < 3)%nat -> rq 1 3 sw Xw (fun _ => 12) i = if Nat.eqb i 0 then 1 / 4096 else 1 / 2.
Proof.
  intros Hi. unfold rq. assert (P12 : (/ 2) ^ 12 = 1 / 4096) by (rewrite <- Rinv_pow by lra; replace (2 ^ 12) with 4096 by ring; lra).
  destruct i as [|[|[|i]]]; try lia; cbn [Nat.eqb].
  - rewrite (kf_w 12); [exact P12|]. rewrite xq_w, Xn_w by lia. unfold fz. cbn [Nat.eqb]. rewrite (INR_lit 12 12) by reflexivity. absr.
  - rewrite (kf_w 1); [lra|]. rewrite xq_w, Xn_w by lia. unfold fz. cbn [Nat.eqb]. cbn [INR]. absr.
  - rewrite (kf_w 1); [lra|]. rewrite xq_w, Xn_w by lia. unfold fz. cbn [Nat.eqb]. cbn [INR]. absr.
Qed.
Lemma F_w0 i : Fmat PLinear 1 3 Xw i 0%nat = 1. Proof. apply fvec_0. Qed.
Lemma F_w1 i : (i < 3)%nat -> Fmat PLinear 1 3 Xw i 1%nat = fz i. Proof. intros H. unfold Fmat. rewrite fvec_linear by lia. cbn [Nat.eqb Nat.sub]. apply Xn_w. exact H. Qed.
Lemma k_ok_w : k_ok sw 1. Proof. split; [congruence|]. intros j Hj. assert (0 < ln 2) by (rewrite <- ln_1; apply ln_increasing; lra). lra. Qed.
Lemma pd_w : mpd 3 (corr_matrix sw 1 3 (Xnorm 3 Xw) 0 (fun _ => 0)).
Proof.
  apply corr_matrix_pd_distinct; try congruence.
  - intros j Hj. assert (0 < ln 2) by (rewrite <- ln_1; apply ln_increasing; lra). lra.
  - intros i j Hi Hj N E. specialize (E 0%nat ltac:(lia)). rewrite !Xn_w in E by assumption. unfold fz in E. destruct i as [|[|[|i]]]; try lia; destruct j as [|[|[|j]]]; try lia; cbn [Nat.eqb] in E; lra.
  - intros; lra.
Qed.
Lemma mean_yw : mean 3 yw = 1 / 3. Proof. unfold mean, yw. cbn. lra. Qed.
(** with a linear trend the reported variance is not the error of the predictor *)
Lemma linear_refuted : exists m w, krg_train gs_qr rcond01 cond0 1 3 PLinear sw 0 (fun _ => 0) Xw yw = Some m /\
  blup 3 2 (corr_matrix sw 1 3 (Xnorm 3 Xw) 0 (fun _ => 0)) (Fmat PLinear 1 3 Xw) (rq 1 3 sw Xw (fun _ => 12)) (fvec PLinear 1 (xq 3 Xw (fun _ => 12))) w /\
  predict_variance m (fun _ => 12) <> p_sigma2 (m_par m) * mse 3 (corr_matrix sw 1 3 (Xnorm 3 Xw) 0 (fun _ => 0)) (rq 1 3 sw Xw (fun _ => 12)) w.
Proof.
  destruct (train_gs 1 3 PLinear sw 0 (fun _ => 0) Xw yw ltac:(lia) ltac:(cbn; lia) pd_w) as [m Em].
  { intros b Hb j Hj. pose proof (Hb 0%nat ltac:(lia)) as E0. pose proof (Hb 1%nat ltac:(lia)) as E1. cbn [n_regr Nat.add] in *. unfold mv in E0, E1. cbn [rsum] in E0, E1. rewrite F_w0, F_w1 in E0 by lia. rewrite F_w0, F_w1 in E1 by lia. unfold fz in E0, E1. cbn [Nat.eqb] in *.
    destruct j as [|[|j]]; [lra|lra|lia]. }
  pose proof (train_inv _ _ _ _ _ _ _ _ _ _ _ _ gs_contract rcond01_contract Em) as T.
  destruct (mean_blup 1 3 PLinear sw 0 (fun _ => 0) Xw yw m T (fun _ => 12)) as (w & B & _). exists m, w. split; [exact Em|]. split; [exact B|].
  set (D := (1 + 1 / 2048) * (1 + 1 / 4)). assert (Dp : D <> 0) by (unfold D; lra).
  pose (z := fun i : nat => if Nat.eqb i 0 then 1 / (1 + 1 / 2048) else if Nat.eqb i 1 then (1 - 1 / 8192) / D else 1 / (1 + 1 / 4)).
  assert (Hz : forall i, (i < 3)%nat -> mv 3 (corr_matrix sw 1 3 (Xnorm 3 Xw) 0 (fun _ => 0)) z i = 1).
  { intros i Hi. unfold mv. cbn [rsum]. rewrite !R_w by lia. unfold z, D. destruct i as [|[|[|i]]]; try lia; cbn [Nat.eqb Nat.add]; lra. }
  pose (g := fun i : nat => if Nat.eqb i 0 then 0 else 2 / 5).
  assert (Hg : forall i, (i < 3)%nat -> mv 3 (corr_matrix sw 1 3 (Xnorm 3 Xw) 0 (fun _ => 0)) g i = rq 1 3 sw Xw (fun _ => 12) i).
  { intros i Hi. rewrite r_w by exact Hi. unfold mv. cbn [rsum]. rewrite !R_w by lia. unfold g. destruct i as [|[|[|i]]]; try lia; cbn [Nat.eqb Nat.add]; lra. }
  pose proof (G_row 1 3 PLinear sw 0 (fun _ => 0) Xw yw m T z 0%nat Hz ltac:(cbn; lia)) as M0. pose proof (G_row 1 3 PLinear sw 0 (fun _ => 0) Xw yw m T z 1%nat Hz ltac:(cbn; lia)) as M1.
  pose proof (u_row 1 3 PLinear sw 0 (fun _ => 0) Xw yw m T g (fun _ => 12) 0%nat Hg ltac:(cbn; lia)) as U0. pose proof (u_row 1 3 PLinear sw 0 (fun _ => 0) Xw yw m T g (fun _ => 12) 1%nat Hg ltac:(cbn; lia)) as U1.
  unfold dot in M0, M1, U0, U1. cbn [rsum] in M0, M1, U0, U1. rewrite !F_w0 in M0, U0. rewrite !F_w1 in M1, U1 by lia. rewrite fvec_0 in U0. rewrite fvec_linear in U1 by lia. cbn [Nat.eqb Nat.sub] in U1. rewrite xq_w in U1.
  unfold z, g, fz, D in *. cbn [Nat.eqb] in *.
  apply (variance_two 1 3 PLinear sw 0 (fun _ => 0) Xw yw m T (fun _ => 12) w); [reflexivity|exact k_ok_w|intros; lra|exact B| | |].
  - apply (sigma2_pos 1 3 PLinear sw 0 (fun _ => 0) Xw yw m T). intros b.
    set (c := scale1 3 yw). assert (cn : c <> 0) by apply scale1_nz.
    destruct (Req_dec (ynorm 3 yw 0%nat) (mv 2 (Fmat PLinear 1 3 Xw) b 0%nat)) as [E0|N]; [|exists 0%nat; split; [lia|exact N]].
    destruct (Req_dec (ynorm 3 yw 1%nat) (mv 2 (Fmat PLinear 1 3 Xw) b 1%nat)) as [E1|N]; [|exists 1%nat; split; [lia|exact N]].
    exists 2%nat. split; [lia|]. intros E2. cbn [n_regr Nat.add] in E2. unfold mv in E0, E1, E2. cbn [rsum] in E0, E1, E2. rewrite F_w0, F_w1 in E0 by lia. rewrite F_w0, F_w1 in E1 by lia. rewrite F_w0, F_w1 in E2 by lia.
    unfold ynorm in E0, E1, E2. rewrite mean_yw in E0, E1, E2. fold c in E0, E1, E2. unfold yw, fz in E0, E1, E2. cbn [Nat.eqb] in E0, E1, E2. unfold Rdiv in E0, E1, E2.
    assert (b 1%nat = 0) by lra. assert (/ c = 0) by lra. apply (Rinv_neq_0_compat c cn). assumption.
  - intros E. apply (f_equal (fun q => p_G (m_par m) 0%nat 0%nat * q)) in E. rewrite Rmult_0_r, <- Rmult_assoc, M1, U0 in E. lra.
  - intros E. apply (f_equal (fun q => p_G (m_par m) 0%nat 0%nat * q)) in E. rewrite <- Rmult_assoc, M1, U0, U1 in E.
    match type of E with _ = ?g * (2 * ?b * ?g) => replace (g * (2 * b * g)) with (2 * b * (g * g)) in E by ring end. rewrite M0 in E. lra.
Qed.
(** ** a constant input column: its scale is 1 whatever the unit, so changing the unit changes the model *)
Definition sc1 : kspec := KStd SquarExp (fun _ => 1).
Definition Xc : nat -> vec := fun _ _ => 0.
Definition yc : vec := fun i => INR i.
Lemma mean_c : mean 2 (fun a => Xc a 0%nat) = 0. Proof. unfold mean, Xc. cbn. lra. Qed.
Lemma scale_c : scale1 2 (fun a => Xc a 0%nat) = 1.
Proof.
  unfold scale1. assert (E : std1 2 (fun a => Xc a 0%nat) = 0). { unfold std1. apply sqrt_square_eq; [lra|]. cbn [rsum]. rewrite mean_c. unfold Xc. cbn. lra. }
  rewrite E. destruct (Req_EM_T 0 0); [reflexivity|lra].
Qed.
Lemma Xn_c i : Xnorm 2 Xc i 0%nat = 0. Proof. unfold Xnorm. rewrite mean_c, scale_c. unfold Xc. lra. Qed.
Lemma xq_c v : xq 2 Xc (fun _ => v) 0%nat = v. Proof. unfold xq. rewrite mean_c, scale_c. lra. Qed.
Lemma kf_c u v : kf sc1 1 u v = exp (- (u 0%nat - v 0%nat) ^ 2). Proof. unfold kf, kd, sc1, kernel, k_exp, comp_dist. cbn [rsum]. f_equal. ring. Qed.
Lemma R_c i j : (i < 2)%nat -> (j < 2)%nat -> corr_matrix sc1 1 2 (Xnorm 2 Xc) 1 (fun _ => 0) i j = if Nat.eqb i j then 2 else 1.
Proof. intros Hi Hj. rewrite corr_matrix_spec by assumption. destruct (Nat.eqb i j); [lra|]. rewrite kf_c, !Xn_c. replace (- (0 - 0) ^ 2) with 0 by ring. apply exp_0. Qed.
Lemma r_c v i : rq 1 2 sc1 Xc (fun _ => v) i = exp (- v ^ 2).
Proof. unfold rq. rewrite kf_c, Xn_c, xq_c. f_equal. ring. Qed.
Lemma constant_column_refuted : exists m, krg_train gs_qr rcond01 cond0 1 2 PConstant sc1 1 (fun _ => 0) Xc yc = Some m /\
  krg_train gs_qr rcond01 cond0 1 2 PConstant sc1 1 (fun _ => 0) (fun i c => 2 * Xc i c + 0) yc = Some m /\ predict_variance m (fun _ => 2 * 1 + 0) <> predict_variance m (fun _ => 1).
Proof.
  assert (K : k_ok sc1 1) by (split; [congruence|intros; lra]). assert (Nn : forall i, (i < 2)%nat -> 0 < 1 + (fun _ : nat => 0) i) by (intros; lra).
  destruct (train_gs 1 2 PConstant sc1 1 (fun _ => 0) Xc yc ltac:(lia) ltac:(cbn; lia) (corr_matrix_pd_nugget sc1 1 2 (Xnorm 2 Xc) 1 (fun _ => 0) K Nn) (constant_regular 1 2 Xc ltac:(lia))) as [m Em].
  exists m. split; [exact Em|]. split. { replace (fun i c => 2 * Xc i c + 0) with Xc; [exact Em|]. unfold Xc. apply functional_extensionality. intros i. apply functional_extensionality. intros c. ring. }
  pose proof (train_inv _ _ _ _ _ _ _ _ _ _ _ _ gs_contract rcond01_contract Em) as T.
  assert (V : forall v, predict_variance m (fun _ => v) = p_sigma2 (m_par m) * (5 / 2 - 2 * exp (- v ^ 2))).
  { intros v. rewrite (variance_constant 1 2 PConstant sc1 1 (fun _ => 0) Xc yc m T K (fun i Hi => Rlt_le _ _ (Nn i Hi)) (fun _ => v) (fun _ => 1 / 2) eq_refl).
    - f_equal. unfold mse, dot, mv. cbn [rsum]. rewrite !r_c, !R_c by lia. cbn [Nat.eqb]. lra.
    - split.
      + intros j Hj. cbn [n_regr] in Hj. assert (j = 0%nat) as -> by lia. cbn [rsum]. unfold Fmat. rewrite !fvec_0. lra.
      + intros w' U. specialize (U 0%nat ltac:(cbn; lia)). cbn [rsum] in U. unfold Fmat in U. rewrite !fvec_0 in U. unfold mse, dot, mv. cbn [rsum]. rewrite !r_c, !R_c by lia. cbn [Nat.eqb].
        replace (w' 1%nat) with (1 - w' 0%nat) by lra. generalize (exp (- v ^ 2)). intros e. pose proof (pow2_ge_0 (2 * w' 0%nat - 1)). cbn [pow] in *. lra. }
  rewrite !V. assert (S2 : 0 < p_sigma2 (m_par m)).
  { apply (sigma2_pos 1 2 PConstant sc1 1 (fun _ => 0) Xc yc m T). intros b. set (c := scale1 2 yc). assert (cn : c <> 0) by apply scale1_nz.
    destruct (Req_dec (ynorm 2 yc 0%nat) (mv 1 (Fmat PConstant 1 2 Xc) b 0%nat)) as [E0|N]; [|exists 0%nat; split; [lia|exact N]].
    exists 1%nat. split; [lia|]. intros E1. cbn [n_regr] in E1. unfold mv in E0, E1. cbn [rsum] in E0, E1. unfold Fmat in E0, E1. rewrite fvec_0 in E0, E1. rewrite <- E0 in E1. unfold ynorm, Rdiv in E1. fold c in E1. unfold yc in E1. cbn [INR] in E1.
    assert (/ c = 0) by lra. apply (Rinv_neq_0_compat c cn). assumption. }
  intros E. apply Rmult_eq_reg_l in E; [|lra]. assert (exp (- (2 * 1 + 0) ^ 2) = exp (- 1 ^ 2)) as Q by lra. apply exp_inv in Q. lra.
Qed.
