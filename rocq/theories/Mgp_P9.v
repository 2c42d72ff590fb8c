From Coq Require Import Reals Arith Bool List Lia Lra FunctionalExtensionality.
From Coquelicot Require Import Coquelicot.
From Verif Require Import RSum Mat Psd Psd2 Tri_M Tri_P Kernels_M Kernels_P Kernels_P2 Kernels_P3 Krg_M Krg_S Krg_P Krg_P2 Krg_P3 Krg_P4 Krg_P5 Krg_Qr Rbf_P Poly_P LikGrad_M LikGrad_S LikGrad_P1 LikGrad_P2 LikGrad_P3 LikGrad_P4 Mgp_M Mgp_S Mgp_P1 Mgp_P2 Mgp_P3 Mgp_P4 Mgp_P5 Mgp_P6 Mgp_P7 Mgp_P8.
Import ListNotations.
Open Scope list_scope.
Open Scope R_scope.

(** ** a trained model: the points (0, 0) and (1, 1) with values 0 and 1, one active direction *)
Definition X2 : nat -> vec := fun i _ => INR i.
Definition y2 : vec := INR.
Notation trn2 pv := (mgp_train gs_qr rcond01 cond0 2 2 1 PConstant pv 0 (fun _ => 0) X2 y2).
Notation rl2 := (rl gs_qr rcond01 cond0 (GStd ActExp 1) 2 2 (n_regr PConstant 2) (Xnorm 2 X2) (fun i j => fvec PConstant 2 (Xnorm 2 X2 i) j) (ynorm 2 y2) (scale1 2 y2) 0 (fun _ => 0) (INR 2)).
Lemma fit_gs nt p dof Rm F y ystd : (p <= nt)%nat -> msym nt Rm -> mpd nt Rm -> (forall b : vec, (forall a, (a < nt)%nat -> mv p F b a = 0) -> forall j, (j < p)%nat -> b j = 0) ->
  exists v pr, reduced_likelihood gs_qr rcond01 cond0 nt p dof Rm F y ystd = Fit v pr.
Proof.
  intros Hp Sy PD Hr. unfold reduced_likelihood. destruct (chol_complete nt _ Sy PD) as [C EC]. rewrite EC. cbv zeta. unfold gs_qr. pose proof (chol_sound _ _ _ EC) as FC.
  set (Ft := fun i j : nat => _). pose proof (gs_regular nt p Ft Hp) as Rg. destruct (gs nt Ft p) as [Q G]. cbn [snd] in Rg.
  destruct (Rlt_dec (rcond01 _ G) _) as [L|L]; [exfalso|eexists; eexists; reflexivity]. unfold rcond01 in L. destruct (Req_EM_T _ 0) as [Z|Z].
  - revert Z. apply rprod_nz. apply Rg. intros b Hb. apply Hr. intros a Ha. transitivity (mv nt C (mv p Ft b) a).
    + unfold mv. rewrite (rsum_ext nt _ (fun k => rsum p (fun j => C a k * Ft k j * b j))) by (intros k Hk; rewrite <- rsum_scal_l; apply rsum_ext; intros; ring). rewrite rsum_swap. apply rsum_ext. intros j Hj. rewrite rsum_scal_r. f_equal. unfold Ft. symmetry. apply (fsub_solves nt C (fun a => F a j)); [apply (chol_lower _ _ _ FC)|apply (chol_diag _ _ _ FC)|exact Ha].
    + apply mv_zero. exact Hb.
  - assert (1 / 10 ^ 10 < 1); [|lra]. unfold Rdiv. rewrite Rmult_1_l. rewrite <- Rinv_1. apply Rinv_lt_contravar; [|]; assert (1 < 10 ^ 10) by (apply Rlt_pow_R1; [lra|lia]); lra.
Qed.
Lemma corr2 th : 0 < th 0%nat + th 1%nat -> 0 < corr_of ActExp 2 1 th (Xnorm 2 X2 0) (Xnorm 2 X2 1) < 1.
Proof.
  intros H. unfold corr_of. unfold kernel, comp_dist. 
  set (e := act_dA 2 th (fun j => Xnorm 2 X2 0 j - Xnorm 2 X2 1 j) 0).
  assert (E : e <> 0).
  { unfold e, act_dA. cbn [rsum Nat.mul Nat.add]. assert (D : forall j, Xnorm 2 X2 0 j - Xnorm 2 X2 1 j = - / scale1 2 (fun i => INR i)).
    { intros j. unfold Xnorm, X2. set (s := scale1 2 _). set (mm := mean 2 _). cbn [INR]. unfold Rdiv. ring. }
    rewrite !D. set (s := / scale1 2 (fun i => INR i)). assert (s <> 0) by (apply Rinv_neq_0_compat, scale1_nz). intros Q. assert (Q' : s * (th 0%nat + th 1%nat) = 0) by lra. apply Rmult_integral in Q'. destruct Q'; [contradiction|lra]. }
  assert (G : forall r, r = exp (- (1 / 2) * rsum 1 (fun s => act_dA 2 th (fun j => Xnorm 2 X2 0 j - Xnorm 2 X2 1 j) s ^ 2)) -> 0 < r < 1).
  { intros r ->. split; [apply exp_pos|]. eapply Rlt_le_trans; [apply (exp_increasing _ 0)|rewrite exp_0; lra]. change (- (1 / 2) * (0 + e ^ 2) < 0). assert (0 < e ^ 2) by (apply pow2_gt_0; exact E). lra. }
  apply G. reflexivity.
Qed.
Lemma fit2 th : 0 < th 0%nat + th 1%nat -> exists v pr, rl2 th = Fit v pr.
Proof.
  intros H. unfold rl. apply fit_gs; [cbn; lia|apply R_of_sym| |apply (constant_regular 2 2 X2); lia].
  intros w (i & Hi & W). rewrite form_dot. cbn [rsum]. pose proof (corr2 th H) as C. pose proof (corr_sym ActExp 2 1 th (Xnorm 2 X2 1) (Xnorm 2 X2 0)) as Sy.
  rewrite !(R_entry 2 2 1 0 (fun _ => 0) X2) by lia. cbn [Nat.eqb]. rewrite Sy. set (r := corr_of ActExp 2 1 th (Xnorm 2 X2 0) (Xnorm 2 X2 1)) in *.
  assert (P : 0 < w 0%nat * w 0%nat + w 1%nat * w 1%nat).
  { assert (0 <= w 0%nat * w 0%nat) by apply Rle_0_sqr. assert (0 <= w 1%nat * w 1%nat) by apply Rle_0_sqr. destruct i as [|[|i]]; [| |lia]; pose proof (Rlt_0_sqr _ W) as Q; unfold Rsqr in Q; lra. }
  assert (S1 : 0 <= (w 0%nat + w 1%nat) * (w 0%nat + w 1%nat)) by apply Rle_0_sqr. assert (S2 : 0 <= (w 0%nat - w 1%nat) * (w 0%nat - w 1%nat)) by apply Rle_0_sqr. nra.
Qed.
Lemma nB2 th : 0 < th 0%nat + th 1%nat -> nB 2 2 1 X2 th <> 0.
Proof.
  intros H Z. unfold nB in Z. cbn [rsum] in Z. unfold Bm in Z. cbn [Nat.mul Nat.add] in Z.
  assert (E : forall j, sc 2 X2 j = scale1 2 (fun i => INR i)) by reflexivity. rewrite !E in Z. set (s := scale1 2 _) in *. assert (N : s <> 0) by apply scale1_nz.
  assert (A0 : 0 <= (th 0%nat / s) ^ 2) by apply pow2_ge_0. assert (A1 : 0 <= (th 1%nat / s) ^ 2) by apply pow2_ge_0.
  apply sqrt_eq_0 in Z; [|lra]. assert (B0 : (th 0%nat / s) ^ 2 = 0) by lra. assert (B1 : (th 1%nat / s) ^ 2 = 0) by lra.
  assert (D : forall t, (t / s) ^ 2 = 0 -> t = 0). { intros t Ht. destruct (Req_dec t 0) as [|Nt]; [assumption|]. exfalso. assert (t / s <> 0) by (unfold Rdiv; apply Rmult_integral_contrapositive; split; [exact Nt|apply Rinv_neq_0_compat; exact N]). apply (pow_nonzero (t / s) 2); assumption. }
  rewrite (D _ B0), (D _ B1) in H. lra.
Qed.
Lemma train2 pv th : 0 < th 0%nat + th 1%nat -> exists m, trn2 pv th = Some m.
Proof.
  intros H. destruct (fit2 th H) as (v & pr & E). exists (mk gs_qr rcond01 cond0 2 2 1 PConstant pv 0 (fun _ => 0) X2 y2 th pr). apply train_iff. split; [lia|]. split; [cbn; lia|]. split; [apply nB2; exact H|]. exists v, pr. split; [exact E|reflexivity].
Qed.
Lemma not_trend2 : data_not_trend 2 2 PConstant X2 y2.
Proof.
  intros (b & Hb). pose proof (Hb 0%nat ltac:(lia)) as E0. pose proof (Hb 1%nat ltac:(lia)) as E1.
  assert (E : ynorm 2 y2 0 = ynorm 2 y2 1) by (rewrite E0, E1; reflexivity).
  unfold ynorm in E. set (s := scale1 2 y2) in *. assert (s <> 0) by apply scale1_nz. set (m := mean 2 y2) in *. apply (Rmult_eq_compat_r s) in E. unfold Rdiv in E. rewrite !Rmult_assoc, Rinv_l, !Rmult_1_r in E by assumption. unfold y2 in E. cbn in E. lra.
Qed.
(** a strong enough prior makes inv_sigma_R positive definite *)
Lemma psd2 th : 0 < th 0%nat + th 1%nat -> exists pv m, 0 < pv /\ trn2 pv th = Some m /\ mpd (2 * 1) (g_isr m).
Proof.
  intros H. destruct (fit2 th H) as (v & pr & E).
  set (h := fun a b => hess_of (GStd ActExp 1) 2 2 (n_regr PConstant 2) (Xnorm 2 X2) (fun i j => fvec PConstant 2 (Xnorm 2 X2 i) j) (scale1 2 y2) pr th a b).
  set (B := 1 + Rabs (h 0%nat 0%nat) + Rabs (h 0%nat 1%nat) + Rabs (h 1%nat 0%nat) + Rabs (h 1%nat 1%nat)).
  pose proof (Rabs_pos (h 0%nat 0%nat)). pose proof (Rabs_pos (h 0%nat 1%nat)). pose proof (Rabs_pos (h 1%nat 0%nat)). pose proof (Rabs_pos (h 1%nat 1%nat)).
  assert (PB : 0 < B) by (unfold B; lra). exists (/ B), (mk gs_qr rcond01 cond0 2 2 1 PConstant (/ B) 0 (fun _ => 0) X2 y2 th pr). split; [apply Rinv_0_lt_compat; exact PB|].
  split; [apply train_iff; split; [lia|]; split; [cbn; lia|]; split; [apply nB2; exact H|]; exists v, pr; split; [exact E|reflexivity]|].
  assert (I : forall a b, (a < 2)%nat -> (b < 2)%nat -> g_isr (mk gs_qr rcond01 cond0 2 2 1 PConstant (/ B) 0 (fun _ => 0) X2 y2 th pr) a b = - h a b + (if Nat.eqb b a then 2 * B else 0)).
  { intros a b Ha Hb. cbn [mk g_isr]. rewrite (isr_ok gs_qr rcond01 cond0 2 2 1 PConstant (/ B) 0 (fun _ => 0) X2 y2 gs_contract rcond01_contract ltac:(cbn; lia) th a b) by lia.
    unfold mgp_hess, rl_hessian. rewrite E. fold (h a b). unfold log_prior_hess. rewrite sig_m by lia. rewrite Rinv_inv. destruct (Nat.eqb b a); ring. }
  intros w (i & Hi & W). rewrite form_dot. cbn [Nat.mul Nat.add rsum]. rewrite !I by lia. cbn [Nat.eqb].
  assert (P : 0 < w 0%nat * w 0%nat + w 1%nat * w 1%nat).
  { assert (0 <= w 0%nat * w 0%nat) by apply Rle_0_sqr. assert (0 <= w 1%nat * w 1%nat) by apply Rle_0_sqr. destruct i as [|[|i]]; [| |lia]; pose proof (Rlt_0_sqr _ W) as Q; unfold Rsqr in Q; lra. }
  assert (S1 : 0 <= (w 0%nat + w 1%nat) * (w 0%nat + w 1%nat)) by apply Rle_0_sqr. assert (S2 : 0 <= (w 0%nat - w 1%nat) * (w 0%nat - w 1%nat)) by apply Rle_0_sqr.
  assert (T : forall a x y, x * x <= w 0%nat * w 0%nat + w 1%nat * w 1%nat -> y * y <= w 0%nat * w 0%nat + w 1%nat * w 1%nat -> x * y * - a >= - Rabs a * (w 0%nat * w 0%nat + w 1%nat * w 1%nat)).
  { intros a x z Hx Hz. set (N := w 0%nat * w 0%nat + w 1%nat * w 1%nat) in *. assert (X1 : 0 <= (x + z) * (x + z)) by apply Rle_0_sqr. assert (X3 : 0 <= (x - z) * (x - z)) by apply Rle_0_sqr. assert (- N <= x * z <= N) by lra. unfold Rabs. destruct (Rcase_abs a); nra. }
  assert (Q0 : w 0%nat * w 0%nat <= w 0%nat * w 0%nat + w 1%nat * w 1%nat) by (pose proof (Rle_0_sqr (w 1%nat)) as Q; unfold Rsqr in Q; lra). assert (Q1 : w 1%nat * w 1%nat <= w 0%nat * w 0%nat + w 1%nat * w 1%nat) by (pose proof (Rle_0_sqr (w 0%nat)) as Q; unfold Rsqr in Q; lra).
  pose proof (T (h 0%nat 0%nat) _ _ Q0 Q0) as T0. pose proof (T (h 0%nat 1%nat) _ _ Q0 Q1) as T1. pose proof (T (h 1%nat 0%nat) _ _ Q1 Q0) as T2. pose proof (T (h 1%nat 1%nat) _ _ Q1 Q1) as T3.
  set (N := w 0%nat * w 0%nat + w 1%nat * w 1%nat) in *.
  assert (G : 0 < 2 * B * N - (Rabs (h 0%nat 0%nat) + Rabs (h 0%nat 1%nat) + Rabs (h 1%nat 0%nat) + Rabs (h 1%nat 1%nat)) * N).
  { replace (2 * B * N - _ * N) with ((B + 1) * N) by (unfold B; ring). apply Rmult_lt_0_compat; lra. }
  unfold N in *. lra.
Qed.
Lemma var2 th x : 0 < th 0%nat + th 1%nat -> exists pv m v M, 0 < pv /\ trn2 pv th = Some m /\ mpd (2 * 1) (g_isr m) /\ mgp_variance lsolve_n m 2 x = Some (v, M).
Proof.
  intros H. destruct (psd2 th H) as (pv & m & P & E & D). exists pv, m. destruct (mgp_variance lsolve_n m 2 x) as [[v M]|] eqn:EV; [exists v, M; auto|]. exfalso.
  apply (t_none_iff gs_qr rcond01 cond0 lsolve_n 2 2 1 PConstant pv 0 (fun _ => 0) X2 y2 gs_contract rcond01_contract th m x E lsolve_n_ok) in EV. destruct EV as (z & Nz & Z). pose proof (D z Nz) as Q. rewrite (dot_zero_r _ _ _ Z) in Q. lra.
Qed.
Lemma local2 th om : 0 < th 0%nat + th 1%nat -> (om < 2)%nat -> locally (th om) (fun t => 0 < upd th om t 0%nat + upd th om t 1%nat).
Proof.
  intros H Ho. destruct om as [|[|om]]; [| |lia].
  - assert (L : locally (th 0%nat) (fun t => - th 1%nat < t)) by (apply (open_gt (- th 1%nat)); lra). generalize L. apply filter_imp. intros t Ht. unfold upd. cbn [Nat.eqb]. lra.
  - assert (L : locally (th 1%nat) (fun t => - th 0%nat < t)) by (apply (open_gt (- th 0%nat)); lra). generalize L. apply filter_imp. intros t Ht. unfold upd. cbn [Nat.eqb]. lra.
Qed.
