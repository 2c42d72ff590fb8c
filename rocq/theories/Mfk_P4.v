From Coq Require Import Reals Arith Bool List Lia Lra.
From Coquelicot Require Import Coquelicot.
From Verif Require Import RSum Mat Psd Psd2 Tri_M Tri_P Kernels_M Kernels_P Kernels_P2 Kernels_P3 Krg_M Krg_S Krg_P Krg_P2 Krg_P3 Krg_P8 Krg_Qr Mfk_M Mfk_S Mfk_P Mfk_P2 Mfk_P3 Rmtc_S.
Import ListNotations.
Open Scope list_scope.
Open Scope R_scope.

Section T.
Variables (nx : nat) (po rho : poly) (qr : nat -> nat -> mat -> mat * mat) (rcond : nat -> mat -> R) (condF : nat -> nat -> mat -> R) (nugget : R) (all : list data) (lvls : list level).
Hypotheses (HQ : qr_contract qr) (HR : rcond_contract rcond) (E : mfk_train nx po rho qr rcond condF nugget all = Some lvls).
Variables (inv : nat -> mat -> mat) (pls : bool).
Hypothesis HI : inv_contract inv.
Notation vars := (mfk_variances nx po rho inv pls all lvls).
Notation lp := (lpred nx po rho all lvls).
Notation vmean := (var_mean nx po rho all lvls).
Notation get := (get nx po rho qr rcond condF nugget all lvls HQ HR E).
Notation ms_0 := (ms_0 nx po rho qr rcond condF nugget all lvls E inv pls).
Notation ms_S := (ms_S nx po rho qr rcond condF nugget all lvls E inv pls).
Notation vars_nth := (vars_nth nx po rho all lvls inv pls).
Notation used_mean := (used_mean nx po rho qr rcond condF nugget all lvls E).
Notation lv0_ex := (lv0_ex nx po rho qr rcond condF nugget all lvls HQ HR E).
(** the PLS variant: the process term is halved *)
Lemma var_next_pls k d : pls = true -> nth_error all (S k) = Some d -> exists s2, lv_sigma2 nx po rho nugget all lvls (S k) d s2 /\ forall x, exists w w0 sr,
  lv_blup nx po rho nugget all lvls (S k) d (lv_trend nx po rho all (S k) (vmean (S k)) x) (lv_r nx all d x) w /\ lv_simple nx nugget all d (lv_r nx all d x) w0 /\
  lv_rho2 nx po rho nugget all lvls (S k) d s2 x sr /\
  nth (S k) (vars x) 0 = sr * nth k (vars x) 0 + s2 * (lv_mse nx nugget all d (lv_r nx all d x) w - lv_mse nx nugget all d (lv_r nx all d x) w0 / 2).
Proof.
  intros Hp Hd. destruct (get (S k) d Hd) as (lv & Hl & K). destruct (lv0_ex (S k) d Hd) as (lv0 & d0 & _ & H0 & _). pose proof (lk_fit _ _ _ _ _ _ _ _ K) as O.
  exists (p_sigma2 (l_par lv)). split; [eapply sigma2_k; eassumption|]. intros x. destruct (simple_mse nx _ _ _ _ _ _ _ _ _ (stdx all x) O) as (w0 & W1 & W2).
  eexists. exists w0, (sigma2_rho nx po rho inv (y_scale all) lv (stdx all x)). split; [|split; [|split]].
  - eapply to_blup; try eassumption. apply (w_blup _ _ _ _ (lv_y all d) (l_par lv)); [apply corr_matrix_sym|exact O].
  - intros w'. rewrite <- !to_mse. apply W1.
  - eapply rho2_k; try eassumption. lia.
  - assert (Lk : (S k < length all)%nat) by (apply nth_error_Some; congruence). rewrite !vars_nth, (ms_S k lv (stdx all x) lv0 H0 Hl). rewrite (used_mean k lv0 x H0 Lk), Hp.
    rewrite (next_pls_eq nx po rho nugget all (firstn (S k) lvls) d lv K inv). cbv zeta. rewrite <- (ls2_eq all lv). rewrite <- !to_mse.
    change (lv_r nx all d x) with (gr nx (d_k d) (fun i => stdx all (d_X d i)) (stdx all x)). rewrite W2.
    rewrite <- (g_mse nx (d_nt d) _ (d_k d) (fun i => stdx all (d_X d i)) nugget (d_noise d) _ (lv_y all d) (l_par lv) O).
    change (basis nx po rho (Some ((vmean (S k) x - y_off all) / y_scale all)) (stdx all x)) with (lv_trend nx po rho all (S k) (vmean (S k)) x). field.
Qed.
Lemma vars_nonneg x : (forall d, In d all -> k_ok (d_k d) nx /\ forall i, (i < d_nt d)%nat -> 0 <= nugget + d_noise d i) -> forall k, 0 <= nth k (vars x) 0.
Proof.
  intros H k. rewrite vars_nth. apply Rmult_le_pos; [|apply pow2_ge_0]. induction k as [|k IH].
  - destruct (nth_error all 0) as [d|] eqn:Hd.
    + destruct (get 0 d Hd) as (lv & Hl & K). rewrite (ms_0 lv) by exact Hl. destruct (H d (nth_error_In _ _ Hd)) as [Ko Nn]. apply (first_nonneg nx po rho nugget all [] d lv K Ko Nn). reflexivity.
    + rewrite nth_overflow; [lra|]. apply nth_error_None in Hd. rewrite <- (len_lvls nx po rho qr rcond condF nugget all lvls E) in Hd. destruct lvls; [cbn; lia|cbn in Hd; lia].
  - destruct (nth_error all (S k)) as [d|] eqn:Hd.
    + destruct (get (S k) d Hd) as (lv & Hl & K). destruct (lv0_ex (S k) d Hd) as (lv0 & d0 & _ & H0 & _). rewrite (ms_S k lv _ lv0 H0 Hl). destruct (H d (nth_error_In _ _ Hd)) as [Ko Nn].
      apply (next_nonneg nx po rho nugget all _ d lv K inv HI Ko Nn). exact IH.
    + rewrite nth_overflow; [lra|]. apply nth_error_None in Hd. pose proof (vars_len nx po rho qr rcond condF nugget all lvls E inv pls x) as L. unfold mfk_variances in L. rewrite map_length in L. lia.
Qed.
(** zero at the training points of the first level, and of the first two if shared *)
Lemma var_train0 d i : nth_error all 0 = Some d -> (i < d_nt d)%nat -> nugget + d_noise d i = 0 -> nth 0 (vars (d_X d i)) 0 = 0.
Proof.
  intros Hd Hi Hn. destruct (get 0 d Hd) as (lv & Hl & K). rewrite vars_nth, (ms_0 lv) by exact Hl. pose proof (lk_fit _ _ _ _ _ _ _ _ K) as O.
  unfold first_mse. rewrite (q_eq nx po rho nugget all _ d lv K), (nt_eq nx po rho nugget all _ d lv K), (rt_eq' nx po rho nugget all _ d lv K), (u_eq' nx po rho nugget all _ d lv K).
  rewrite (g_rt_one nx (d_nt d) _ (d_k d) (fun i => stdx all (d_X d i)) nugget (d_noise d) _ _ (l_par lv) O i Hi Hn).
  rewrite (gu_train nx (d_nt d) _ (d_k d) (fun i => stdx all (d_X d i)) nugget (d_noise d) _ _ (l_par lv) O i Hi Hn); [ring|]. intros j Hj. reflexivity.
Qed.
Lemma var_train1 d0 d i0 i : nth_error all 0 = Some d0 -> nth_error all 1 = Some d -> (i0 < d_nt d0)%nat -> (i < d_nt d)%nat -> nugget + d_noise d0 i0 = 0 -> nugget + d_noise d i = 0 ->
  d_X d0 i0 = d_X d i -> nth 1 (vars (d_X d i)) 0 = 0.
Proof.
  intros Hd0 Hd Hi0 Hi Hn0 Hn Ex. destruct (get 1 d Hd) as (lv & Hl & K). destruct (lv0_ex 1 d Hd) as (lv0 & d0' & _ & H0 & _). pose proof (lk_fit _ _ _ _ _ _ _ _ K) as O. assert (Lk : (1 < length all)%nat) by (apply nth_error_Some; congruence).
  pose proof (var_train0 d0 i0 Hd0 Hi0 Hn0) as V0. rewrite Ex, vars_nth in V0. rewrite vars_nth, (ms_S 0 lv _ lv0 H0 Hl).
  assert (M0 : nth 0 (mses nx po rho inv pls (y_scale all) lvls (stdx all (d_X d i))) 0 = 0). { apply Rmult_integral in V0. destruct V0 as [V0|V0]; [exact V0|]. exfalso. revert V0. apply pow_nonzero, ys_nz. }
  rewrite M0.
  assert (U : forall f, (forall j, f j = lF nx po rho all (firstn 1 lvls) d i j) -> dot (lq nx rho (firstn 1 lvls) + np nx po) (gu nx (d_nt d) (lq nx rho (firstn 1 lvls) + np nx po) (d_k d) (fun i => stdx all (d_X d i)) (l_par lv) f (stdx all (d_X d i))) (gu nx (d_nt d) (lq nx rho (firstn 1 lvls) + np nx po) (d_k d) (fun i => stdx all (d_X d i)) (l_par lv) f (stdx all (d_X d i))) = 0).
  { intros f Hf. apply (gu_train nx (d_nt d) _ (d_k d) (fun i => stdx all (d_X d i)) nugget (d_noise d) _ _ (l_par lv) O i Hi Hn). intros; apply Hf. }
  assert (B : forall j, basis nx po rho (Some (if Nat.eqb 0 0 then level_mean nx po rho None lv0 (stdx all (d_X d i)) else 0)) (stdx all (d_X d i)) j = lF nx po rho all (firstn 1 lvls) d i j).
  { intros j. unfold lF. rewrite (firstn_snoc lvls 0 lv0 H0), last_snoc. reflexivity. }
  pose proof (g_rt_one nx (d_nt d) _ (d_k d) (fun i => stdx all (d_X d i)) nugget (d_noise d) _ _ (l_par lv) O i Hi Hn) as R1.
  destruct pls.
  - rewrite (next_pls_eq nx po rho nugget all _ d lv K inv). cbv zeta. rewrite U by exact B. cbn beta in R1. rewrite R1. ring.
  - unfold next_mse. cbv zeta. rewrite (q_eq nx po rho nugget all _ d lv K), (nt_eq nx po rho nugget all _ d lv K), (rt_eq' nx po rho nugget all _ d lv K), (u_eq' nx po rho nugget all _ d lv K). rewrite U by exact B. cbn beta in R1. rewrite R1. ring.
Qed.
(** from the third level on it is positive at training points, unless the prediction there is the mean output *)
Lemma var_train_pos k d i s2 : (forall d, In d all -> k_ok (d_k d) nx /\ forall i, (i < d_nt d)%nat -> 0 <= nugget + d_noise d i) ->
  (2 <= k)%nat -> nth_error all k = Some d -> (i < d_nt d)%nat -> nugget + d_noise d i = 0 -> lv_sigma2 nx po rho nugget all lvls k d s2 -> s2 <> 0 ->
  lp k (d_X d i) <> y_off all -> 0 < nth k (vars (d_X d i)) 0.
Proof.
  intros HK Hk Hd Hi Hn Hs Ns Nl. destruct k as [|[|k]]; try lia. destruct (get (S (S k)) d Hd) as (lv & Hl & K). destruct (lv0_ex _ d Hd) as (lv0 & d0' & _ & H0 & _). pose proof (lk_fit _ _ _ _ _ _ _ _ K) as O.
  assert (Lk : (S (S k) < length all)%nat) by (apply nth_error_Some; congruence).
  pose proof (vars_nonneg (d_X d i) HK (S k)) as V1. rewrite vars_nth in V1. rewrite vars_nth, (ms_S (S k) lv _ lv0 H0 Hl).
  set (v := nth (S k) _ 0) in *. assert (Yp : 0 < y_scale all ^ 2) by (apply pow_lt, ys_pos).
  assert (Vn : 0 <= v). { apply (Rmult_le_reg_r (y_scale all ^ 2)); [exact Yp|]. rewrite Rmult_0_l. exact V1. }
  apply Rmult_lt_0_compat; [|exact Yp]. cbn [Nat.eqb].
  assert (S2 : p_sigma2 (l_par lv) = s2).
  { destruct (sigma2_k nx po rho qr rcond condF nugget all lvls E (S (S k)) d lv Hd Hl K) as (b & w & [G1 G2] & ->). destruct Hs as (b' & w' & [G1' G2'] & ->). assert (w = w') by (apply Rle_antisym; [apply (G2 b' w' G1')|apply (G2' b w G1)]). congruence. }
  assert (P2 : 0 < l_s2 (y_scale all) lv). { pose proof (ls2_nonneg nx po rho nugget all _ d lv K) as P. destruct P as [P|P]; [exact P|]. exfalso. apply Ns. rewrite <- S2, <- (ls2_eq all lv), <- P. ring. }
  destruct (pint_some nx po rho qr rcond condF nugget all lvls E (S (S k)) (d_X d i) ltac:(lia)) as (m & Hm & _ & Hm').
  assert (Nm : m <> 0). { intros Z. apply Nl. rewrite Z in Hm'. apply (Rmult_eq_compat_r (y_scale all)) in Hm'. unfold Rdiv in Hm'. rewrite Rmult_assoc, Rinv_l, Rmult_1_r in Hm' by apply ys_nz. lra. }
  assert (Q : lq nx rho (firstn (S (S k)) lvls) = n_regr rho nx) by (eapply qS; try eassumption; lia).
  assert (U : 0 < dot (lq nx rho (firstn (S (S k)) lvls) + np nx po) (gu nx (d_nt d) (lq nx rho (firstn (S (S k)) lvls) + np nx po) (d_k d) (fun i => stdx all (d_X d i)) (l_par lv) (basis nx po rho (Some 0) (stdx all (d_X d i))) (stdx all (d_X d i))) (gu nx (d_nt d) (lq nx rho (firstn (S (S k)) lvls) + np nx po) (d_k d) (fun i => stdx all (d_X d i)) (l_par lv) (basis nx po rho (Some 0) (stdx all (d_X d i))) (stdx all (d_X d i)))).
  { apply (gu_train_pos nx (d_nt d) _ (d_k d) (fun i => stdx all (d_X d i)) nugget (d_noise d) _ _ (l_par lv) O i Hi Hn _ 0%nat); [rewrite Q; pose proof (n_regr_pos rho nx); lia|].
    unfold lF. rewrite Hm. unfold basis, nq. replace (Nat.ltb 0 (n_regr rho nx)) with true by (symmetry; apply Nat.ltb_lt, n_regr_pos). rewrite fvec_0. lra. }
  pose proof (g_rt_one nx (d_nt d) _ (d_k d) (fun i => stdx all (d_X d i)) nugget (d_noise d) _ _ (l_par lv) O i Hi Hn) as R1. cbn beta in R1.
  pose proof (sr_nonneg nx po rho nugget all _ d lv K inv HI (stdx all (d_X d i))) as Sr. set (u := dot _ _ _) in U.
  assert (Ps : 0 < l_s2 (y_scale all) lv * u) by (apply Rmult_lt_0_compat; assumption). assert (Pv : 0 <= sigma2_rho nx po rho inv (y_scale all) lv (stdx all (d_X d i)) * v) by (apply Rmult_le_pos; assumption).
  destruct pls.
  - rewrite (next_pls_eq nx po rho nugget all _ d lv K inv). cbv zeta. fold u. rewrite R1. lra.
  - unfold next_mse. cbv zeta. rewrite (q_eq nx po rho nugget all _ d lv K), (nt_eq nx po rho nugget all _ d lv K), (rt_eq' nx po rho nugget all _ d lv K), (u_eq' nx po rho nugget all _ d lv K). fold u. rewrite R1. lra.
Qed.
End T.

(** ** an inverse meeting the contract: by Cholesky *)
Definition chol_inv (n : nat) (A : mat) : mat :=
  match cholesky n A with Some L => fun i j => bsub n (tr L) (fsub L (fun a => if Nat.eqb a j then 1 else 0) n) n i | None => fun _ _ => 0 end.
Lemma chol_inv_contract : inv_contract chol_inv.
Proof.
  intros n A Sy PD. unfold chol_inv. destruct (chol_complete n A Sy PD) as [L EL]. rewrite EL. pose proof (chol_sound _ _ _ EL) as FC.
  set (B := fun i j => bsub n (tr L) (fsub L (fun a => if Nat.eqb a j then 1 else 0) n) n i).
  assert (AB : forall i j, (i < n)%nat -> mv n A (fun a => B a j) i = if Nat.eqb i j then 1 else 0).
  { intros i j Hi. unfold B. rewrite <- (chol_mv n A L _ Sy FC i Hi).
    rewrite (mv_ext n L L _ (fsub L (fun a => if Nat.eqb a j then 1 else 0) n) i); [|reflexivity|intros k Hk; apply bsub_solves; [apply (chol_upper_tr _ _ _ FC)|apply (chol_diag_tr _ _ _ FC)|exact Hk]].
    apply (fsub_solves n L (fun a => if Nat.eqb a j then 1 else 0)); [apply (chol_lower _ _ _ FC)|apply (chol_diag _ _ _ FC)|exact Hi]. }
  (* B is symmetric: B_ij = (A B e_j).. by uniqueness *)
  assert (BS : forall i j, (i < n)%nat -> (j < n)%nat -> B i j = B j i).
  { intros i j Hi Hj.
    assert (Q : forall a b, (a < n)%nat -> (b < n)%nat -> dot n (fun c => B c a) (mv n A (fun c => B c b)) = B b a).
    { intros a b Ha Hb. unfold dot. rewrite (rsum_ext n _ (fun c => if Nat.eqb c b then B c a else 0)); [apply (rsum_single n (fun c => B c a) b Hb)|]. intros c Hc. rewrite AB by exact Hc. destruct (Nat.eqb c b); ring. }
    rewrite <- (Q j i Hj Hi), <- (Q i j Hi Hj). apply dot_mv_sym. exact Sy. }
  intros i j Hi Hj. split; [apply AB; exact Hi|]. transitivity (mv n A (fun a => B a i) j).
  - unfold mv. apply rsum_ext. intros k Hk. rewrite (BS i k), (Sy k j) by assumption. ring.
  - rewrite AB by exact Hj. rewrite Nat.eqb_sym. reflexivity.
Qed.
