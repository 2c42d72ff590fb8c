From Coq Require Import Reals Arith Bool List Lia Lra.
From Coquelicot Require Import Coquelicot.
From Verif Require Import RSum Mat Psd Psd2 Tri_M Tri_P Kernels_M Kernels_P Kernels_P2 Kernels_P3 Krg_M Krg_S Krg_P Krg_P2 Krg_P3 Krg_P8 Krg_Qr Mfk_M Mfk_S Mfk_P Mfk_P2 Rmtc_S.
Import ListNotations.
Open Scope list_scope.
Open Scope R_scope.

(** extensionality of the specifications *)
Lemma unb_ext n p F F' f f' w : (forall i j, (i < n)%nat -> (j < p)%nat -> F i j = F' i j) -> (forall j, (j < p)%nat -> f j = f' j) -> unbiased n p F f w -> unbiased n p F' f' w.
Proof. intros H1 H2 U j Hj. rewrite <- H2 by exact Hj. rewrite <- (U j Hj). apply rsum_ext. intros a Ha. rewrite H1 by assumption. reflexivity. Qed.
Lemma blup_ext n p A B F F' r f f' w : (forall i j, (i < n)%nat -> (j < n)%nat -> A i j = B i j) -> (forall i j, (i < n)%nat -> (j < p)%nat -> F i j = F' i j) -> (forall j, (j < p)%nat -> f j = f' j) ->
  blup n p A F r f w -> blup n p B F' r f' w.
Proof.
  intros HA HF Hf [U M]. split; [apply (unb_ext n p F F' f f' w HF Hf U)|]. intros w' U'.
  rewrite <- (mse_ext n A B r r w HA) by reflexivity. rewrite <- (mse_ext n A B r r w' HA) by reflexivity. apply M.
  apply (unb_ext n p F' F f' f w'); [intros; symmetry; apply HF; assumption|intros; symmetry; apply Hf; assumption|exact U'].
Qed.
Lemma gls_ext n p A B F F' y b v : (forall i j, (i < n)%nat -> (j < n)%nat -> A i j = B i j) -> (forall i j, (i < n)%nat -> (j < p)%nat -> F i j = F' i j) ->
  gls_residual n p A F y b v -> gls_residual n p B F' y b v.
Proof.
  intros HA HF (g & Hg & Hv). exists g. assert (E : forall i, (i < n)%nat -> mv p F b i = mv p F' b i) by (intros i Hi; apply mv_ext; [intros; apply HF; assumption|reflexivity]). split.
  - intros i Hi. rewrite <- E by exact Hi. rewrite <- (Hg i Hi). apply mv_ext; [intros; symmetry; apply HA; assumption|reflexivity].
  - rewrite Hv. apply dot_ext; [reflexivity|]. intros i Hi. rewrite E by exact Hi. reflexivity.
Qed.
Lemma gls_opt_ext n p A B F F' y b v : (forall i j, (i < n)%nat -> (j < n)%nat -> A i j = B i j) -> (forall i j, (i < n)%nat -> (j < p)%nat -> F i j = F' i j) ->
  gls_opt n p A F y b v -> gls_opt n p B F' y b v.
Proof.
  intros HA HF [G M]. split; [apply (gls_ext n p A B F F'); assumption|]. intros b' v' G'. apply (M b' v'). apply (gls_ext n p B A F' F); [intros; symmetry; apply HA; assumption|intros; symmetry; apply HF; assumption|exact G'].
Qed.
Lemma info_ext n p A B F F' M : (forall i j, (i < n)%nat -> (j < n)%nat -> A i j = B i j) -> (forall i j, (i < n)%nat -> (j < p)%nat -> F i j = F' i j) ->
  info_inverse n p A F M -> info_inverse n p B F' M.
Proof.
  intros HA HF (Y & H1 & H2). exists Y. split.
  - intros i j Hi Hj. rewrite <- HF by assumption. rewrite <- (H1 i j Hi Hj). apply rsum_ext. intros a Ha. rewrite HA by assumption. reflexivity.
  - intros i j Hi Hj. destruct (H2 i j Hi Hj) as [I1 I2]. split; [rewrite <- I1|rewrite <- I2]; apply rsum_ext; intros a Ha; f_equal; apply rsum_ext; intros b Hb; rewrite HF by assumption; reflexivity.
Qed.
(** the best linear predictor without trend *)
Lemma simple_mse nx n N s Z nugget noise F y pr x : fit_ok n N (corr_matrix s nx n Z nugget noise) F y pr ->
  exists w, (forall w', mse n (corr_matrix s nx n Z nugget noise) (gr nx s Z x) w <= mse n (corr_matrix s nx n Z nugget noise) (gr nx s Z x) w') /\
    mse n (corr_matrix s nx n Z nugget noise) (gr nx s Z x) w = 1 - dot n (grt nx n s Z pr x) (grt nx n s Z pr x).
Proof.
  intros O. pose proof (fo_C _ _ _ _ _ _ O) as FC. set (Rm := corr_matrix s nx n Z nugget noise) in *.
  set (pr' := {| p_sigma2 := 0; p_beta := p_beta pr; p_gamma := bsub n (tr (p_C pr)) (fsub (p_C pr) y n) n; p_C := p_C pr; p_Ft := p_Ft pr; p_G := p_G pr; p_Q := p_Q pr |}).
  assert (O' : fit_ok n 0 Rm F y pr').
  { split; cbn [p_C p_Ft p_Q p_G p_beta p_gamma pr']; try (intros; lia); try apply O.
    - intros i j Hi. lia.
    - intros i Hi. lia.
    - intros i Hi. rewrite bsub_solves; [unfold mv; cbn [rsum]; ring|apply (chol_upper_tr _ _ _ FC)|apply (chol_diag_tr _ _ _ FC)|exact Hi]. }
  exists (wstar n 0 pr' (gr nx s Z x) (fun _ => 0)). split.
  - intros w'. apply (w_blup n 0 Rm F y pr' (corr_matrix_sym _ _ _ _ _ _) O' (gr nx s Z x) (fun _ => 0)). intros j Hj. lia.
  - rewrite <- (g_mse nx n 0 s Z nugget noise F y pr' O'). unfold dot at 2. cbn [rsum]. change (grt nx n s Z pr' x) with (grt nx n s Z pr x). ring.
Qed.

Section T.
Variables (nx : nat) (po rho : poly) (qr : nat -> nat -> mat -> mat * mat) (rcond : nat -> mat -> R) (condF : nat -> nat -> mat -> R) (nugget : R) (all : list data) (lvls : list level).
Hypotheses (HQ : qr_contract qr) (HR : rcond_contract rcond) (E : mfk_train nx po rho qr rcond condF nugget all = Some lvls).
Notation pint := (predict_intermediate nx po rho all lvls).
Notation lp := (lpred nx po rho all lvls).
Notation lmean := (last_mean nx po rho).
Lemma len_lvls : length lvls = length all.
Proof. apply (train_nth _ _ _ _ _ _ _ _ _ E). Qed.
Lemma get k d : nth_error all k = Some d -> exists lv, nth_error lvls k = Some lv /\ lvl_ok nx po rho nugget all (firstn k lvls) d lv.
Proof.
  intros H. destruct (train_nth _ _ _ _ _ _ _ _ _ E) as [_ T]. destruct (T k d H) as (lv & Hl & Ht). exists lv. split; [exact Hl|]. apply (train_level_ok nx po rho qr rcond condF nugget all HQ HR). exact Ht.
Qed.
Lemma pint_some k x : (1 <= k <= length all)%nat -> exists m, lmean (firstn k lvls) (stdx all x) = Some m /\ pint k x = Some (m * y_scale all + y_off all) /\ (lp k x - y_off all) / y_scale all = m.
Proof.
  intros H. destruct (lmean (firstn k lvls) (stdx all x)) as [m|] eqn:L.
  - exists m. split; [reflexivity|]. unfold lpred, predict_intermediate, mfk_value. rewrite L. split; [reflexivity|]. field. apply ys_nz.
  - apply last_none in L. assert (L2 : length (firstn k lvls) = 0%nat) by (rewrite L; reflexivity). rewrite firstn_length, len_lvls in L2. lia.
Qed.
Lemma all_levels x : mfk_value nx po rho all lvls x = pint (length all) x.
Proof. unfold predict_intermediate. rewrite <- len_lvls, firstn_all. reflexivity. Qed.
Section K.
Variables (k : nat) (d : data) (lv : level).
Hypotheses (Hd : nth_error all k = Some d) (Hl : nth_error lvls k = Some lv) (K : lvl_ok nx po rho nugget all (firstn k lvls) d lv).
Notation done := (firstn k lvls).
Notation Z := (fun i => stdx all (d_X d i)).
Notation N := (lq nx rho done + np nx po)%nat.
Notation Rm := (corr_matrix (d_k d) nx (d_nt d) Z nugget (d_noise d)).
Lemma k_len : (k < length all)%nat. Proof. apply nth_error_Some. congruence. Qed.
Lemma N_eq : N = lv_p nx po rho k.
Proof.
  unfold lv_p, np, lq, nq. f_equal. destruct (Nat.eqb_spec k 0) as [-> | Hk]; [reflexivity|]. destruct (firstn k lvls) eqn:F; [|reflexivity]. pose proof k_len. assert (L : length (firstn k lvls) = 0%nat) by (rewrite F; reflexivity). rewrite firstn_length, len_lvls in L. lia.
Qed.
Lemma q0 : k = 0%nat -> lq nx rho done = 0%nat. Proof. intros ->. reflexivity. Qed.
Lemma qS : k <> 0%nat -> lq nx rho done = n_regr rho nx.
Proof. intros Hk. pose proof N_eq as H. unfold lv_p, np in H. destruct (Nat.eqb_spec k 0); [congruence|]. lia. Qed.
Lemma basis_trend x j : basis nx po rho (lmean done (stdx all x)) (stdx all x) j = lv_trend nx po rho all k (lp k) x j.
Proof.
  unfold lv_trend. destruct (Nat.eqb_spec k 0) as [-> | Hk]; [reflexivity|]. pose proof k_len. destruct (pint_some k x ltac:(lia)) as (m & -> & _ & ->). reflexivity.
Qed.
Lemma F_eq i j : lF nx po rho all done d i j = lv_F nx po rho all lvls k d i j.
Proof. unfold lF, lv_F. apply basis_trend. Qed.
Lemma R_eq i j : (i < d_nt d)%nat -> (j < d_nt d)%nat -> Rm i j = lv_corr nx nugget all d i j.
Proof. intros Hi Hj. rewrite corr_matrix_spec by assumption. reflexivity. Qed.
Lemma to_blup f r w : blup (d_nt d) N Rm (lF nx po rho all done d) r f w -> lv_blup nx po rho nugget all lvls k d f r w.
Proof. intros B. unfold lv_blup. rewrite <- N_eq. apply (blup_ext _ _ Rm _ (lF nx po rho all done d) _ _ f); try exact B; [exact R_eq|intros; apply F_eq|reflexivity]. Qed.
Lemma to_gls b v : gls_opt (d_nt d) N Rm (lF nx po rho all done d) (lv_y all d) b v -> gls_opt (d_nt d) (lv_p nx po rho k) (lv_corr nx nugget all d) (lv_F nx po rho all lvls k d) (lv_y all d) b v.
Proof. rewrite N_eq. apply gls_opt_ext; [exact R_eq|intros; apply F_eq]. Qed.
Lemma to_mse r w : mse (d_nt d) Rm r w = lv_mse nx nugget all d r w.
Proof. unfold lv_mse. apply mse_ext; [exact R_eq|reflexivity]. Qed.
Lemma pint_S x : pint (S k) x = Some (level_mean nx po rho (lmean done (stdx all x)) lv (stdx all x) * y_scale all + y_off all).
Proof. unfold predict_intermediate, mfk_value. rewrite (firstn_snoc lvls k lv Hl), last_snoc. reflexivity. Qed.
Lemma y_back i : lv_y all d i * y_scale all + y_off all = d_y d i.
Proof. unfold lv_y. field. apply ys_nz. Qed.
Lemma interp_k i : (i < d_nt d)%nat -> pint (S k) (d_X d i) = Some (d_y d i - y_scale all * (nugget + d_noise d i) * p_gamma (l_par lv) i).
Proof.
  intros Hi. rewrite pint_S, (level_interp nx po rho nugget all done d lv K i Hi). f_equal. rewrite <- (y_back i). ring.
Qed.
Lemma trend_const x (P : vec -> R) : lv_trend nx po rho all k P x (if Nat.eqb k 0 then 0 else n_regr rho nx)%nat = 1.
Proof. unfold lv_trend. destruct (Nat.eqb k 0); [apply fvec_0|]. rewrite Nat.ltb_irrefl, Nat.sub_diag. apply fvec_0. Qed.
Lemma blup_k x : exists w, lv_blup nx po rho nugget all lvls k d (lv_trend nx po rho all k (lp k) x) (lv_r nx all d x) w /\ pint (S k) x = Some (dot (d_nt d) w (d_y d)).
Proof.
  pose proof (lk_fit _ _ _ _ _ _ _ _ K) as O. set (r := gr nx (d_k d) Z (stdx all x)). set (f := lv_trend nx po rho all k (lp k) x). exists (wstar (d_nt d) N (l_par lv) r f).
  pose proof (w_blup (d_nt d) N Rm _ (lv_y all d) (l_par lv) (corr_matrix_sym _ _ _ _ _ _) O r f) as B. apply to_blup in B. split; [exact B|]. rewrite pint_S. f_equal.
  rewrite (mean_eq nx po rho nugget all done d lv K).
  rewrite (dot_ext N (basis nx po rho (lmean done (stdx all x)) (stdx all x)) (p_beta (l_par lv)) f (p_beta (l_par lv))) by (intros; try reflexivity; apply basis_trend). fold r.
  rewrite <- (w_mean (d_nt d) N Rm _ (lv_y all d) (l_par lv) O). set (w := wstar _ _ _ _ _) in *.
  assert (U : rsum (d_nt d) w = 1).
  { destruct B as [U _]. set (c := (if Nat.eqb k 0 then 0 else n_regr rho nx)%nat). assert (Hc : (c < lv_p nx po rho k)%nat) by (unfold c, lv_p; pose proof (n_regr_pos po nx); lia). pose proof (U c Hc) as Uc. unfold f in Uc. unfold c in Uc at 2. rewrite trend_const in Uc. rewrite <- Uc.
    apply rsum_ext. intros a Ha. unfold lv_F, c. rewrite trend_const. ring. }
  transitivity (dot (d_nt d) w (lv_y all d) * y_scale all + y_off all * rsum (d_nt d) w); [rewrite U; ring|].
  unfold dot. rewrite <- rsum_scal_r, <- rsum_scal_l, <- rsum_plus. apply rsum_ext. intros a Ha. transitivity (w a * (lv_y all d a * y_scale all + y_off all)); [ring|rewrite y_back; reflexivity].
Qed.
Lemma sigma2_k : lv_sigma2 nx po rho nugget all lvls k d (p_sigma2 (l_par lv)).
Proof.
  pose proof (gls_ok nx po rho nugget all done d lv K) as G. apply to_gls in G. eexists. eexists. split; [exact G|].
  rewrite (lk_s2 _ _ _ _ _ _ _ _ K). rewrite <- N_eq, plus_INR. f_equal. f_equal. ring.
Qed.
Variable inv : nat -> mat -> mat.
Hypothesis HI : inv_contract inv.
Lemma rho2_k x : k <> 0%nat -> lv_rho2 nx po rho nugget all lvls k d (p_sigma2 (l_par lv)) x (sigma2_rho nx po rho inv (y_scale all) lv (stdx all x)).
Proof.
  intros Hk. pose proof (gls_ok nx po rho nugget all done d lv K) as G. apply to_gls in G. eexists. eexists. eexists. split; [exact G|]. split.
  - rewrite <- N_eq. apply (info_ext _ _ Rm _ (lF nx po rho all done d)); [exact R_eq|intros; apply F_eq|]. apply (M_info nx po rho nugget all done d lv K inv HI).
  - rewrite (sr_eq nx po rho nugget all done d lv K inv). rewrite qS by exact Hk. reflexivity.
Qed.
End K.

(** ** variances *)
Variables (inv : nat -> mat -> mat) (pls : bool).
Hypothesis HI : inv_contract inv.
Notation ms := (mses nx po rho inv pls (y_scale all) lvls).
Notation vars := (mfk_variances nx po rho inv pls all lvls).
Lemma next_len ys mu v l x : length (next_mses nx po rho inv pls ys mu v l x) = length l.
Proof. revert mu v. induction l as [|a l IH]; intros; cbn; [reflexivity|rewrite IH; reflexivity]. Qed.
Lemma next_nth ys x l : forall mu v k lv, nth_error l k = Some lv ->
  nth k (next_mses nx po rho inv pls ys mu v l x) 0 = next_mse nx po rho inv pls ys (if Nat.eqb k 0 then mu else 0) (nth k (v :: next_mses nx po rho inv pls ys mu v l x) 0) lv x.
Proof.
  induction l as [|a l IH]; intros mu v [|k] lv H; cbn in H; try discriminate.
  - injection H as ->. reflexivity.
  - cbn [next_mses]. cbv zeta. cbn [nth Nat.eqb]. rewrite (IH 0 (next_mse nx po rho inv pls ys mu v a x) k lv H). destruct (Nat.eqb k 0); reflexivity.
Qed.
Lemma ms_0 lv x : nth_error lvls 0 = Some lv -> nth 0 (ms x) 0 = first_mse nx po (y_scale all) lv x.
Proof. destruct lvls as [|a l]; [discriminate|]. cbn. intros [= ->]. reflexivity. Qed.
Lemma ms_S k lv x lv0 : nth_error lvls 0 = Some lv0 -> nth_error lvls (S k) = Some lv -> nth (S k) (ms x) 0 =
  next_mse nx po rho inv pls (y_scale all) (if Nat.eqb k 0 then level_mean nx po rho None lv0 x else 0) (nth k (ms x) 0) lv x.
Proof.
  destruct lvls as [|a l]; [discriminate|]. intros H0 H. cbn in H0, H. injection H0 as ->. unfold mses. cbv zeta. change (nth (S k) (?h :: ?t) 0) with (nth k t 0). apply next_nth. exact H.
Qed.
Lemma vars_len x : length (vars x) = length all.
Proof. unfold mfk_variances. rewrite map_length, <- len_lvls. unfold mses. destruct lvls; [reflexivity|]. cbn. rewrite next_len. reflexivity. Qed.
Lemma vars_nth k x : nth k (vars x) 0 = nth k (ms (stdx all x)) 0 * y_scale all ^ 2.
Proof. unfold mfk_variances. set (f := fun m => m * y_scale all ^ 2). replace 0 with (f 0) at 1 by (unfold f; ring). rewrite (map_nth f). reflexivity. Qed.
(** the lower-level mean that the variance computation uses at the query *)
Definition var_mean (k : nat) : vec -> R := if Nat.eqb k 1 then lp 1 else fun _ => y_off all.
Lemma used_mean k lv0 x : nth_error lvls 0 = Some lv0 -> (S k < length all)%nat ->
  (if Nat.eqb k 0 then level_mean nx po rho None lv0 (stdx all x) else 0) = (var_mean (S k) x - y_off all) / y_scale all.
Proof.
  intros H0 Hk. unfold var_mean. cbn [Nat.eqb]. destruct (Nat.eqb_spec k 0) as [-> | Nk].
  - destruct (pint_some 1 x ltac:(lia)) as (m & Hm & _ & ->). rewrite (firstn_snoc lvls 0 lv0 H0), last_snoc in Hm. cbn in Hm. congruence.
  - field. apply ys_nz.
Qed.
Lemma lv0_ex k d : nth_error all k = Some d -> exists lv0 d0, nth_error all 0 = Some d0 /\ nth_error lvls 0 = Some lv0 /\ lvl_ok nx po rho nugget all [] d0 lv0.
Proof.
  intros H. assert (L : (k < length all)%nat) by (apply nth_error_Some; congruence). destruct (nth_error all 0) as [d0|] eqn:E0; [|apply nth_error_None in E0; lia]. destruct (get 0 d0 E0) as (lv0 & H0 & K0). exists lv0, d0. tauto.
Qed.
Lemma basis_used k x : (if Nat.eqb (S k) 0 then 0%nat else n_regr rho nx) = n_regr rho nx -> forall P mu j, (P x - y_off all) / y_scale all = mu ->
  basis nx po rho (Some mu) (stdx all x) j = lv_trend nx po rho all (S k) P x j.
Proof. intros _ P mu j <-. reflexivity. Qed.
Lemma var_first d : nth_error all 0 = Some d -> exists s2, lv_sigma2 nx po rho nugget all lvls 0 d s2 /\ forall x, exists w,
  lv_blup nx po rho nugget all lvls 0 d (lv_trend nx po rho all 0 (lp 0) x) (lv_r nx all d x) w /\ nth 0 (vars x) 0 = s2 * lv_mse nx nugget all d (lv_r nx all d x) w.
Proof.
  intros Hd. destruct (get 0 d Hd) as (lv & Hl & K). exists (p_sigma2 (l_par lv)). split; [apply (sigma2_k 0 d lv Hd Hl K)|]. intros x.
  eexists. split.
  - apply (to_blup 0 d lv Hd Hl K). apply (w_blup _ _ _ _ (lv_y all d) (l_par lv)); [apply corr_matrix_sym|apply (lk_fit _ _ _ _ _ _ _ _ K)].
  - rewrite vars_nth, (ms_0 lv) by exact Hl. rewrite (first_eq nx po rho nugget all [] d lv K) by reflexivity. rewrite <- (ls2_eq all lv). rewrite (to_mse d). unfold lv_trend. cbn [Nat.eqb]. change (lv_r nx all d x) with (gr nx (d_k d) (fun i => stdx all (d_X d i)) (stdx all x)). cbn [firstn lq Nat.add]. ring.
Qed.
Lemma var_next k d : pls = false -> nth_error all (S k) = Some d -> exists s2, lv_sigma2 nx po rho nugget all lvls (S k) d s2 /\ forall x, exists w sr,
  lv_blup nx po rho nugget all lvls (S k) d (lv_trend nx po rho all (S k) (var_mean (S k)) x) (lv_r nx all d x) w /\
  lv_rho2 nx po rho nugget all lvls (S k) d s2 x sr /\ nth (S k) (vars x) 0 = sr * nth k (vars x) 0 + s2 * lv_mse nx nugget all d (lv_r nx all d x) w.
Proof.
  intros Hp Hd. destruct (get (S k) d Hd) as (lv & Hl & K). destruct (lv0_ex (S k) d Hd) as (lv0 & d0 & _ & H0 & _). exists (p_sigma2 (l_par lv)). split; [apply (sigma2_k (S k) d lv Hd Hl K)|]. intros x.
  eexists. exists (sigma2_rho nx po rho inv (y_scale all) lv (stdx all x)). split; [|split].
  - apply (to_blup (S k) d lv Hd Hl K). apply (w_blup _ _ _ _ (lv_y all d) (l_par lv)); [apply corr_matrix_sym|apply (lk_fit _ _ _ _ _ _ _ _ K)].
  - apply (rho2_k (S k) d lv Hd Hl K inv HI). lia.
  - assert (Lk : (S k < length all)%nat) by (apply nth_error_Some; congruence). rewrite !vars_nth, (ms_S k lv (stdx all x) lv0 H0 Hl). rewrite (used_mean k lv0 x H0 Lk), Hp.
    rewrite (next_eq nx po rho nugget all (firstn (S k) lvls) d lv K inv). rewrite <- (ls2_eq all lv). rewrite (to_mse d).
    change (lv_r nx all d x) with (gr nx (d_k d) (fun i => stdx all (d_X d i)) (stdx all x)).
    change (basis nx po rho (Some ((var_mean (S k) x - y_off all) / y_scale all)) (stdx all x)) with (lv_trend nx po rho all (S k) (var_mean (S k)) x). ring.
Qed.
End T.
