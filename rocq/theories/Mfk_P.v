(** Facts about one level of co-kriging, independent of how its trend matrix was built. *)
From Coq Require Import Reals Arith Bool List Lia Lra.
From Coquelicot Require Import Coquelicot.
From Verif Require Import RSum Mat Psd Psd2 Tri_M Tri_P Kernels_M Kernels_P Kernels_P2 Kernels_P3 Krg_M Krg_S Krg_P Krg_P2 Krg_P3.
Import ListNotations.
Open Scope list_scope.
Open Scope R_scope.

Section Lvl.
Variables (nx n N : nat) (s : kspec) (Z : nat -> vec) (nugget : R) (noise : vec) (F : mat) (y : vec) (pr : par).
Let Rm := corr_matrix s nx n Z nugget noise.
Hypothesis O : fit_ok n N Rm F y pr.
Definition gr (x : vec) : vec := fun i => kf s nx x (Z i).
Definition grt (x : vec) : vec := fsub (p_C pr) (gr x) n.
Definition gu (f x : vec) : vec := fsub (tr (p_G pr)) (fun j => f j - mv n (tr (p_Ft pr)) (grt x) j) N.
Lemma g_sym : msym n Rm. Proof. apply corr_matrix_sym. Qed.
Lemma g_train i a : (i < n)%nat -> (a < n)%nat -> gr (Z i) a = Rm i a - (if Nat.eqb i a then nugget + noise i else 0).
Proof.
  intros Hi Ha. unfold Rm. rewrite corr_matrix_spec by assumption. unfold gr. destruct (Nat.eqb_spec i a) as [<- | Q]; [rewrite kf_diag; ring|ring].
Qed.
Lemma g_interp i : (i < n)%nat -> dot N (F i) (p_beta pr) + dot n (gr (Z i)) (p_gamma pr) = y i - (nugget + noise i) * p_gamma pr i.
Proof.
  intros Hi. set (g := p_gamma pr). set (be := p_beta pr).
  assert (A : dot n (gr (Z i)) g = mv n Rm g i - (nugget + noise i) * g i).
  { unfold dot, mv. rewrite (rsum_ext n _ (fun a => Rm i a * g a - (if Nat.eqb a i then (nugget + noise a) * g a else 0))).
    - rewrite rsum_minus. f_equal. apply (rsum_single n (fun a => (nugget + noise a) * g a) i Hi).
    - intros a Ha. rewrite g_train by assumption. rewrite (Nat.eqb_sym a i). destruct (Nat.eqb_spec i a) as [-> | Q]; ring. }
  assert (B : mv n Rm g i = y i - mv N F be i) by (apply (R_gamma n N Rm F y pr g_sym O i Hi)).
  rewrite A, B. change (dot N (F i) be) with (mv N F be i). ring.
Qed.
Lemma gu_dot f x : let u := fsub (tr (p_G pr)) (fun j => mv n (tr (p_Ft pr)) (grt x) j - f j) N in dot N (gu f x) (gu f x) = dot N u u.
Proof.
  cbv zeta. set (u := fsub (tr (p_G pr)) (fun j => mv n (tr (p_Ft pr)) (grt x) j - f j) N).
  assert (Lw : lower N (tr (p_G pr))) by (intros a c Ha Hc; apply (fo_G _ _ _ _ _ _ O); assumption).
  assert (Dg : diagnz N (tr (p_G pr))) by (intros j Hj; apply (fo_D _ _ _ _ _ _ O j Hj)).
  assert (E : forall i, (i < N)%nat -> gu f x i = - u i).
  { intros i Hi. apply Rminus_diag_uniq. apply (lower_inj N (tr (p_G pr)) Lw Dg (fun i => gu f x i - - u i)); [|exact Hi]. intros k Hk. rewrite mv_minus, mv_opp. unfold gu, u. rewrite !fsub_solves by assumption. ring. }
  unfold dot. apply rsum_ext. intros i Hi. rewrite E by exact Hi. ring.
Qed.
Lemma g_mse f x : 1 - dot n (grt x) (grt x) + dot N (gu f x) (gu f x) = mse n Rm (gr x) (wstar n N pr (gr x) f).
Proof. rewrite gu_dot. symmetry. apply (w_mse n N Rm F y pr g_sym O (gr x) f). Qed.
(** any two best linear unbiased predictors have the same error *)
Lemma g_blup_mse f x w : blup n N Rm F (gr x) f w -> 1 - dot n (grt x) (grt x) + dot N (gu f x) (gu f x) = mse n Rm (gr x) w.
Proof.
  intros [U M]. rewrite g_mse. pose proof (w_blup n N Rm F y pr g_sym O (gr x) f) as [U' M']. apply Rle_antisym; [apply M'; exact U|apply M; exact U'].
Qed.
Hypotheses (K : k_ok s nx) (Nn : forall i, (i < n)%nat -> 0 <= nugget + noise i).
Lemma g_mse_nonneg x w : 0 <= mse n Rm (gr x) w.
Proof.
  unfold mse, Rm. rewrite corr_matrix_form.
  pose proof (kf_psd s nx (S n) (fun a => if Nat.ltb a n then Z a else x) K (fun a => if Nat.ltb a n then w a else -1)) as P. cbn [rsum] in P. rewrite Nat.ltb_irrefl in P.
  assert (L : forall a, (a < n)%nat -> Nat.ltb a n = true) by (intros; apply Nat.ltb_lt; assumption).
  rewrite (rsum_ext n (fun j => -1 * (if Nat.ltb j n then w j else -1) * kf s nx x (if Nat.ltb j n then Z j else x)) (fun j => - (w j * gr x j))) in P by (intros j Hj; rewrite L by exact Hj; unfold gr; ring).
  rewrite (rsum_ext n (fun i => rsum n _ + _) (fun i => rsum n (fun j => w i * w j * kf s nx (Z i) (Z j)) - w i * gr x i)) in P.
  2:{ intros i Hi. rewrite !L by exact Hi. rewrite (rsum_ext n _ (fun j => w i * w j * kf s nx (Z i) (Z j))) by (intros j Hj; rewrite L by exact Hj; reflexivity). unfold gr. rewrite (kf_sym s nx x). ring. }
  rewrite rsum_minus, rsum_opp, kf_diag in P. fold (dot n w (gr x)) in P.
  assert (0 <= rsum n (fun i => (nugget + noise i) * w i ^ 2)). { apply rsum_nonneg. intros i Hi. apply Rmult_le_pos; [apply Nn; exact Hi|apply pow2_ge_0]. }
  lra.
Qed.
Lemma g_rt_bound x : dot n (grt x) (grt x) <= 1.
Proof.
  pose proof (fo_C _ _ _ _ _ _ O) as FC. set (q := grt x). set (w := bsub n (tr (p_C pr)) q n). pose proof (g_mse_nonneg x w) as P. unfold mse in P.
  assert (W : forall i, (i < n)%nat -> mv n (tr (p_C pr)) w i = q i) by (intros; apply bsub_solves; [apply (chol_upper_tr _ _ _ FC)|apply (chol_diag_tr _ _ _ FC)|assumption]).
  rewrite (chol_form n Rm _ w g_sym FC) in P. rewrite (dot_ext n _ _ q q) in P by exact W.
  assert (A : dot n w (gr x) = dot n q q).
  { rewrite (dot_ext n w (gr x) w (mv n (p_C pr) q)).
    - rewrite dot_sym, dot_mv_tr. apply dot_ext; [reflexivity|exact W].
    - reflexivity.
    - intros i Hi. symmetry. apply fsub_solves; [apply (chol_lower _ _ _ FC)|apply (chol_diag _ _ _ FC)|exact Hi]. }
  lra.
Qed.
End Lvl.
Section Train.
Variables (nx n N : nat) (s : kspec) (Z : nat -> vec) (nugget : R) (noise : vec) (F : mat) (y : vec) (pr : par).
Let Rm := corr_matrix s nx n Z nugget noise.
Hypothesis O : fit_ok n N Rm F y pr.
Variable i : nat.
Hypotheses (Hi : (i < n)%nat) (H0 : nugget + noise i = 0).
Lemma g_rt_train a : (a < n)%nat -> grt nx n s Z pr (Z i) a = p_C pr i a.
Proof.
  intros Ha. pose proof (fo_C _ _ _ _ _ _ O) as FC. pose proof (g_sym nx n s Z nugget noise) as Sy. fold Rm in Sy.
  unfold grt. apply Rminus_diag_uniq. apply (lower_inj n (p_C pr) (chol_lower _ _ _ FC) (chol_diag _ _ _ FC) (fun a => fsub (p_C pr) (gr nx s Z (Z i)) n a - p_C pr i a)); [|exact Ha].
  intros k Hk. rewrite mv_minus. rewrite fsub_solves; [|apply (chol_lower _ _ _ FC)|apply (chol_diag _ _ _ FC)|exact Hk]. rewrite (g_train nx n s Z nugget noise) by assumption. fold Rm.
  assert (Q : mv n (p_C pr) (p_C pr i) k = Rm i k) by (rewrite <- (Sy k i Hk Hi), <- (chol_mm n Rm _ Sy FC k i Hk Hi); reflexivity).
  rewrite Q. destruct (Nat.eqb i k); lra.
Qed.
Lemma g_rt_one : dot n (grt nx n s Z pr (Z i)) (grt nx n s Z pr (Z i)) = 1.
Proof.
  pose proof (fo_C _ _ _ _ _ _ O) as FC. pose proof (g_sym nx n s Z nugget noise) as Sy. fold Rm in Sy.
  rewrite (dot_ext n _ _ (fun a => p_C pr i a) (fun a => p_C pr i a)) by exact g_rt_train. change (mm n (p_C pr) (tr (p_C pr)) i i = 1). rewrite (chol_mm n Rm _ Sy FC i i Hi Hi). unfold Rm. rewrite corr_matrix_spec by assumption. rewrite Nat.eqb_refl. lra.
Qed.
Lemma g_trend_train j : mv n (tr (p_Ft pr)) (grt nx n s Z pr (Z i)) j = F i j.
Proof.
  transitivity (mv n (p_C pr) (fun a => p_Ft pr a j) i); [|apply (fo_Ft _ _ _ _ _ _ O i j Hi)].
  unfold mv, tr. apply rsum_ext. intros a Ha. rewrite g_rt_train by exact Ha. ring.
Qed.
Lemma gu_train f : (forall j, (j < N)%nat -> f j = F i j) -> dot N (gu nx n N s Z pr f (Z i)) (gu nx n N s Z pr f (Z i)) = 0.
Proof.
  intros E. rewrite (dot_ext N _ _ (fun _ => 0) (fun _ => 0)); [unfold dot; apply rsum_zero; intros; ring| |];
  intros j Hj; unfold gu; (apply (lower_inj N (tr (p_G pr))); [intros a c Ha Hc; apply (fo_G _ _ _ _ _ _ O); assumption|intros k Hk; apply (fo_D _ _ _ _ _ _ O k Hk)| |exact Hj]);
  intros k Hk; (rewrite fsub_solves; [rewrite g_trend_train, E by exact Hk; ring|intros a c Ha Hc; apply (fo_G _ _ _ _ _ _ O); assumption|intros b Hb; apply (fo_D _ _ _ _ _ _ O b Hb)|exact Hk]).
Qed.
(** ... and otherwise it is positive *)
Lemma gu_train_pos f j : (j < N)%nat -> f j <> F i j -> 0 < dot N (gu nx n N s Z pr f (Z i)) (gu nx n N s Z pr f (Z i)).
Proof.
  intros Hj E. destruct (nonzero_dec N (gu nx n N s Z pr f (Z i))) as [(k & Hk & Nz)|Zr]; [apply (dot_self_pos N _ k Hk Nz)|]. exfalso. apply E.
  apply Rminus_diag_uniq. rewrite <- (g_trend_train j). transitivity (mv N (tr (p_G pr)) (gu nx n N s Z pr f (Z i)) j).
  - unfold gu. rewrite fsub_solves; [reflexivity|intros a c Ha Hc; apply (fo_G _ _ _ _ _ _ O); assumption|intros b Hb; apply (fo_D _ _ _ _ _ _ O b Hb)|exact Hj].
  - apply mv_zero. exact Zr.
Qed.
End Train.

(** ** existence: with the Gram-Schmidt oracle the likelihood can be evaluated *)
From Verif Require Import Krg_Qr.
Lemma fit_gs n N dof Rm F y ys : (N <= n)%nat -> msym n Rm -> mpd n Rm -> (forall b : vec, (forall a, (a < n)%nat -> mv N F b a = 0) -> forall j, (j < N)%nat -> b j = 0) ->
  exists v pr, reduced_likelihood gs_qr rcond01 cond0 n N dof Rm F y ys = Fit v pr.
Proof.
  intros Hp Sy PD Hr. unfold reduced_likelihood. destruct (chol_complete n _ Sy PD) as [C EC]. rewrite EC. cbv zeta. unfold gs_qr. pose proof (chol_sound _ _ _ EC) as FC.
  set (Ft := fun i j : nat => solve_triangular n C (fun a => F a j) true i). pose proof (gs_regular n N Ft Hp) as Rg. destruct (gs n Ft N) as [Q G]. cbn [snd] in Rg.
  destruct (Rlt_dec (rcond01 _ G) _) as [L|L]; [exfalso|do 2 eexists; reflexivity]. unfold rcond01 in L. destruct (Req_EM_T _ 0) as [Zr|Zr].
  - revert Zr. apply rprod_nz. apply Rg. intros b Hb. apply Hr. intros a Ha. transitivity (mv n C (mv N Ft b) a).
    + unfold mv. rewrite (rsum_ext n _ (fun k => rsum N (fun j => C a k * Ft k j * b j))) by (intros k Hk; rewrite <- rsum_scal_l; apply rsum_ext; intros; ring). rewrite rsum_swap. apply rsum_ext. intros j Hj. rewrite rsum_scal_r. f_equal. unfold Ft. symmetry. apply (fsub_solves n C (fun a => F a j)); [apply (chol_lower _ _ _ FC)|apply (chol_diag _ _ _ FC)|exact Ha].
    + apply mv_zero. exact Hb.
  - assert (1 / 10 ^ 10 < 1); [|lra]. unfold Rdiv. rewrite Rmult_1_l. rewrite <- Rinv_1. apply Rinv_lt_contravar; [|]; assert (1 < 10 ^ 10) by (apply Rlt_pow_R1; [lra|lia]); lra.
Qed.
