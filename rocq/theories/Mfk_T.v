(** Theorems C50, C51, C84, C85.  Levels are numbered from 0 here; predict_intermediate k uses the first k of them.
    gs_qr, rcond01 (Krg_Qr.v) and chol_inv (Mfk_P4.v) meet the contracts assumed of numpy's QR, condition number, inverse. *)
From Coq Require Import Reals Arith Bool List Lia Lra.
From Verif Require Import RSum Mat Tri_M Kernels_M Krg_M Krg_S Mfk_M Mfk_S Mfk_P2 Mfk_P3 Mfk_P4 Mfk_P5 Mfk_P6 Mfk_P7 Krg_Qr.
Import ListNotations.
Open Scope list_scope.
Open Scope R_scope.

(** C50. Each level has a prediction; predict_values is the one of the last level. *)
Theorem C50_levels : forall nx po rho qr rcond condF nugget all lvls, mfk_train nx po rho qr rcond condF nugget all = Some lvls ->
  (forall k x, (1 <= k <= length all)%nat -> predict_intermediate nx po rho all lvls k x <> None) /\
  (forall x, mfk_value nx po rho all lvls x = predict_intermediate nx po rho all lvls (length all) x) /\
  (forall inv pls x, length (mfk_variances nx po rho inv pls all lvls x) = length all).
Proof.
  intros nx po rho qr rcond condF nugget all lvls E. split; [|split].
  - intros k x H. destruct (pint_some nx po rho qr rcond condF nugget all lvls E k x H) as (m & _ & -> & _). discriminate.
  - exact (all_levels nx po rho qr rcond condF nugget all lvls E).
  - exact (vars_len nx po rho qr rcond condF nugget all lvls E).
Qed.
Print Assumptions C50_levels.
(** Level k is the best linear unbiased predictor of its own data: the trend at a point is (g times the standardised
    prediction of level k-1, f), the correlations are those of level k's kernel. *)
Theorem C50_mean_is_best_linear_unbiased : forall nx po rho qr rcond condF nugget all lvls, qr_contract qr -> rcond_contract rcond ->
  mfk_train nx po rho qr rcond condF nugget all = Some lvls -> forall k d, nth_error all k = Some d -> forall x, exists w,
  lv_blup nx po rho nugget all lvls k d (lv_trend nx po rho all k (lpred nx po rho all lvls k) x) (lv_r nx all d x) w /\
  predict_intermediate nx po rho all lvls (S k) x = Some (dot (d_nt d) w (d_y d)).
Proof.
  intros nx po rho qr rcond condF nugget all lvls HQ HR E k d Hd x. destruct (get nx po rho qr rcond condF nugget all lvls HQ HR E k d Hd) as (lv & Hl & K).
  exact (blup_k nx po rho qr rcond condF nugget all lvls E k d lv Hd Hl K x).
Qed.
Print Assumptions C50_mean_is_best_linear_unbiased.
(** So every level, not only the last, reproduces its own training outputs when it has neither nugget nor noise. *)
Theorem C50_interpolates : forall nx po rho qr rcond condF nugget all lvls, qr_contract qr -> rcond_contract rcond ->
  mfk_train nx po rho qr rcond condF nugget all = Some lvls -> forall k d, nth_error all k = Some d ->
  forall i, (i < d_nt d)%nat -> nugget + d_noise d i = 0 -> predict_intermediate nx po rho all lvls (S k) (d_X d i) = Some (d_y d i).
Proof.
  intros nx po rho qr rcond condF nugget all lvls HQ HR E k d Hd i Hi Z. destruct (get nx po rho qr rcond condF nugget all lvls HQ HR E k d Hd) as (lv & Hl & K).
  rewrite (interp_k nx po rho nugget all lvls k d lv Hl K i Hi), Z. f_equal. ring.
Qed.
Print Assumptions C50_interpolates.
(** With nugget or noise the error is the nugget plus noise times a vector g solving R g = standardised residual. *)
Theorem C50_value_at_training_points : forall nx po rho qr rcond condF nugget all lvls, qr_contract qr -> rcond_contract rcond ->
  mfk_train nx po rho qr rcond condF nugget all = Some lvls -> forall k d, nth_error all k = Some d ->
  exists g : vec, forall i, (i < d_nt d)%nat -> predict_intermediate nx po rho all lvls (S k) (d_X d i) = Some (d_y d i - y_scale all * (nugget + d_noise d i) * g i).
Proof.
  intros nx po rho qr rcond condF nugget all lvls HQ HR E k d Hd. destruct (get nx po rho qr rcond condF nugget all lvls HQ HR E k d Hd) as (lv & Hl & K).
  exists (p_gamma (l_par lv)). exact (interp_k nx po rho nugget all lvls k d lv Hl K).
Qed.
Print Assumptions C50_value_at_training_points.
(** The variance of the first level is process variance times the mean squared error of the best predictor ... *)
Theorem C50_variance_first_level : forall nx po rho qr rcond condF nugget all lvls, qr_contract qr -> rcond_contract rcond ->
  mfk_train nx po rho qr rcond condF nugget all = Some lvls -> forall inv pls d, nth_error all 0 = Some d ->
  exists s2, lv_sigma2 nx po rho nugget all lvls 0 d s2 /\ forall x, exists w,
  lv_blup nx po rho nugget all lvls 0 d (lv_trend nx po rho all 0 (lpred nx po rho all lvls 0) x) (lv_r nx all d x) w /\
  nth 0 (mfk_variances nx po rho inv pls all lvls x) 0 = s2 * lv_mse nx nugget all d (lv_r nx all d x) w.
Proof. exact var_first. Qed.
Print Assumptions C50_variance_first_level.
(** ... and the variance of level k+1 adds to it the variance of level k times the second moment of the scale factor.
    Only level 1 (k = 0) puts the prediction of the level below in the trend; later levels put its mean value y_off. *)
Theorem C50_variance_recursion : forall nx po rho qr rcond condF nugget all lvls, qr_contract qr -> rcond_contract rcond ->
  mfk_train nx po rho qr rcond condF nugget all = Some lvls -> forall inv, inv_contract inv -> forall k d, nth_error all (S k) = Some d ->
  exists s2, lv_sigma2 nx po rho nugget all lvls (S k) d s2 /\ forall x, exists w sr,
  lv_blup nx po rho nugget all lvls (S k) d
    (lv_trend nx po rho all (S k) (if Nat.eqb k 0 then lpred nx po rho all lvls 1 else fun _ => y_off all) x) (lv_r nx all d x) w /\
  lv_rho2 nx po rho nugget all lvls (S k) d s2 x sr /\
  nth (S k) (mfk_variances nx po rho inv false all lvls x) 0
  = sr * nth k (mfk_variances nx po rho inv false all lvls x) 0 + s2 * lv_mse nx nugget all d (lv_r nx all d x) w.
Proof.
  intros nx po rho qr rcond condF nugget all lvls HQ HR E inv HI k d Hd. exact (var_next nx po rho qr rcond condF nugget all lvls HQ HR E inv false HI k d eq_refl Hd).
Qed.
Print Assumptions C50_variance_recursion.
(** MFKPLS and MFKPLSK take away half of the error w0 would have if the trend were known. *)
Theorem C50_pls_variance : forall nx po rho qr rcond condF nugget all lvls, qr_contract qr -> rcond_contract rcond ->
  mfk_train nx po rho qr rcond condF nugget all = Some lvls -> forall inv, inv_contract inv -> forall k d, nth_error all (S k) = Some d ->
  exists s2, lv_sigma2 nx po rho nugget all lvls (S k) d s2 /\ forall x, exists w w0 sr,
  lv_blup nx po rho nugget all lvls (S k) d
    (lv_trend nx po rho all (S k) (if Nat.eqb k 0 then lpred nx po rho all lvls 1 else fun _ => y_off all) x) (lv_r nx all d x) w /\
  lv_simple nx nugget all d (lv_r nx all d x) w0 /\
  lv_rho2 nx po rho nugget all lvls (S k) d s2 x sr /\
  nth (S k) (mfk_variances nx po rho inv true all lvls x) 0
  = sr * nth k (mfk_variances nx po rho inv true all lvls x) 0
    + s2 * (lv_mse nx nugget all d (lv_r nx all d x) w - lv_mse nx nugget all d (lv_r nx all d x) w0 / 2).
Proof.
  intros nx po rho qr rcond condF nugget all lvls HQ HR E inv HI k d Hd. exact (var_next_pls nx po rho qr rcond condF nugget all lvls HQ HR E inv true HI k d eq_refl Hd).
Qed.
Print Assumptions C50_pls_variance.
Theorem C50_variances_nonneg : forall nx po rho qr rcond condF nugget all lvls, qr_contract qr -> rcond_contract rcond ->
  mfk_train nx po rho qr rcond condF nugget all = Some lvls -> forall inv pls, inv_contract inv -> forall x,
  (forall d, In d all -> k_ok (d_k d) nx /\ forall i, (i < d_nt d)%nat -> 0 <= nugget + d_noise d i) ->
  forall k, 0 <= nth k (mfk_variances nx po rho inv pls all lvls x) 0.
Proof. exact vars_nonneg. Qed.
Print Assumptions C50_variances_nonneg.
(** The variance is zero at the points of the first level, and at points the first two levels share ... *)
Theorem C50_zero_at_first_level_points : forall nx po rho qr rcond condF nugget all lvls, qr_contract qr -> rcond_contract rcond ->
  mfk_train nx po rho qr rcond condF nugget all = Some lvls -> forall inv pls d i, nth_error all 0 = Some d -> (i < d_nt d)%nat -> nugget + d_noise d i = 0 ->
  nth 0 (mfk_variances nx po rho inv pls all lvls (d_X d i)) 0 = 0.
Proof. exact var_train0. Qed.
Print Assumptions C50_zero_at_first_level_points.
Theorem C50_zero_at_shared_points : forall nx po rho qr rcond condF nugget all lvls, qr_contract qr -> rcond_contract rcond ->
  mfk_train nx po rho qr rcond condF nugget all = Some lvls -> forall inv pls d0 d i0 i, nth_error all 0 = Some d0 -> nth_error all 1 = Some d ->
  (i0 < d_nt d0)%nat -> (i < d_nt d)%nat -> nugget + d_noise d0 i0 = 0 -> nugget + d_noise d i = 0 -> d_X d0 i0 = d_X d i ->
  nth 1 (mfk_variances nx po rho inv pls all lvls (d_X d i)) 0 = 0.
Proof. exact var_train1. Qed.
Print Assumptions C50_zero_at_shared_points.
(** ... but from the third level on it is positive at every training point where the level below is not predicted to
    be exactly y_off, however the levels share points; third_level gives three levels on the same three points. *)
Theorem C50_third_level_positive : forall nx po rho qr rcond condF nugget all lvls, qr_contract qr -> rcond_contract rcond ->
  mfk_train nx po rho qr rcond condF nugget all = Some lvls -> forall inv pls, inv_contract inv -> forall k d i s2,
  (forall d0, In d0 all -> k_ok (d_k d0) nx /\ forall i0, (i0 < d_nt d0)%nat -> 0 <= nugget + d_noise d0 i0) ->
  (2 <= k)%nat -> nth_error all k = Some d -> (i < d_nt d)%nat -> nugget + d_noise d i = 0 ->
  lv_sigma2 nx po rho nugget all lvls k d s2 -> s2 <> 0 -> lpred nx po rho all lvls k (d_X d i) <> y_off all ->
  0 < nth k (mfk_variances nx po rho inv pls all lvls (d_X d i)) 0.
Proof. exact var_train_pos. Qed.
Print Assumptions C50_third_level_positive.
Theorem C50_third_level_refuted : exists lvls, mfk_train 1 PConstant PConstant gs_qr rcond01 cond0 0 w_all = Some lvls /\
  (forall d, In d w_all -> d_nt d = 3%nat /\ d_X d = w_X /\ forall i, d_noise d i = 0) /\
  forall pls, 0 < nth 2 (mfk_variances 1 PConstant PConstant chol_inv pls w_all lvls (w_X 0)) 0.
Proof.
  destruct third_level as (lvls & T & P). exists lvls. split; [exact T|]. split; [|exact P]. intros d [<- |[<- |[<- |[]]]]; repeat split.
Qed.
Print Assumptions C50_third_level_refuted.
Example C50_nonvacuous : qr_contract gs_qr /\ rcond_contract rcond01 /\ inv_contract chol_inv /\ length w_all = 3%nat /\
  (forall d, In d w_all -> k_ok (d_k d) 1 /\ forall i, (i < d_nt d)%nat -> 0 <= 0 + d_noise d i) /\
  exists lvls, mfk_train 1 PConstant PConstant gs_qr rcond01 cond0 0 w_all = Some lvls.
Proof.
  split; [exact gs_contract|]. split; [exact rcond01_contract|]. split; [exact chol_inv_contract|]. split; [reflexivity|]. split; [|exact w_train].
  intros d [<- |[<- |[<- |[]]]]; (split; [split; [discriminate|intros; lra]|intros; cbn; lra]).
Qed.

(** ** C51 *)
Theorem C51_accepts_iff : forall xs ys, check_list_structure xs ys = true <-> length xs = length ys /\
  (forall k, (k < length xs)%nat -> fst (nth k xs (0, 0)%nat) = nth k ys 0%nat) /\
  (forall k, (2 <= k < length xs)%nat -> snd (nth k xs (0, 0)%nat) = snd (nth (k - 1) xs (0, 0)%nat)).
Proof. exact structure_iff. Qed.
Print Assumptions C51_accepts_iff.
Theorem C51_columns_from_second_level : forall xs ys, check_list_structure xs ys = true ->
  forall a b, (1 <= a)%nat -> (a <= b)%nat -> (b < length xs)%nat -> snd (nth b xs (0, 0)%nat) = snd (nth a xs (0, 0)%nat).
Proof. exact structure_cols. Qed.
Print Assumptions C51_columns_from_second_level.
(** the first level is not compared with the second *)
Theorem C51_first_two_levels_refuted : forall n m c c', check_list_structure [(n, c); (m, c')] [n; m] = true.
Proof.
  intros n m c c'. apply structure_iff. split; [reflexivity|]. split; [intros [|[|k]] H; cbn in *; lia|]. cbn. intros k H. lia.
Qed.
Print Assumptions C51_first_two_levels_refuted.
Example C51_nonvacuous : check_list_structure [(5, 2); (4, 2); (3, 2)]%nat [5; 4; 3]%nat = true /\
  check_list_structure [(5, 2); (4, 2); (3, 1)]%nat [5; 4; 3]%nat = false /\ check_list_structure [(5, 2); (4, 2)]%nat [5; 3]%nat = false.
Proof. repeat split. Qed.

(** ** C84 *)
Theorem C84_available_iff : forall nx po qr rcond condF nugget all lvls, mfk_train nx po PConstant qr rcond condF nugget all = Some lvls ->
  forall corr r x kx, all <> [] -> (exists v, mfk_derivative nx po r corr all lvls x kx = Some v) <-> corr = SquarExp /\ po <> PQuadratic /\ r = PConstant.
Proof. exact mfk_deriv_some. Qed.
Print Assumptions C84_available_iff.
Theorem C84_derivative_is_partial_derivative : forall nx po qr rcond condF nugget all lvls, qr_contract qr -> rcond_contract rcond ->
  mfk_train nx po PConstant qr rcond condF nugget all = Some lvls -> (forall d, In d all -> k_ok (d_k d) nx /\ k_corr (d_k d) = SquarExp) ->
  forall corr x kx v, po = PConstant \/ po = PLinear /\ nx = 1%nat -> (kx < nx)%nat -> mfk_derivative nx po PConstant corr all lvls x kx = Some v ->
  is_partial (fun z => match mfk_value nx po PConstant all lvls z with Some y => y | None => 0 end) x kx v.
Proof. exact mfk_deriv_ok. Qed.
Print Assumptions C84_derivative_is_partial_derivative.
(** With a linear trend in several variables (one level shown) the reported derivative is too large by the sum of the
    trend coefficients of the other variables. *)
Theorem C84_linear_trend_error : forall nx qr rcond condF nugget d lvls, qr_contract qr -> rcond_contract rcond ->
  mfk_train nx PLinear PConstant qr rcond condF nugget [d] = Some lvls -> k_ok (d_k d) nx /\ k_corr (d_k d) = SquarExp ->
  forall x kx v, (kx < nx)%nat -> mfk_derivative nx PLinear PConstant SquarExp [d] lvls x kx = Some v ->
  exists b r, gls_opt (d_nt d) (1 + nx) (lv_corr nx nugget [d] d) (lv_F nx PLinear PConstant [d] lvls 0 d) (lv_y [d] d) b r /\
  is_partial (fun z => match mfk_value nx PLinear PConstant [d] lvls z with Some y => y | None => 0 end) x kx
    (v - rsum nx (fun j => if Nat.eqb j kx then 0 else b (1 + j)%nat) * y_scale [d] / x_scale [d] kx).
Proof. exact linear_error. Qed.
Print Assumptions C84_linear_trend_error.
Theorem C84_linear_refuted : exists lvls v, mfk_train 2 PLinear PConstant gs_qr rcond01 cond0 0 [v_d] = Some lvls /\
  mfk_derivative 2 PLinear PConstant SquarExp [v_d] lvls (fun _ => 0) 1 = Some v /\
  ~ is_partial (fun z => match mfk_value 2 PLinear PConstant [v_d] lvls z with Some y => y | None => 0 end) (fun _ => 0) 1 v.
Proof. exact v_refuted. Qed.
Print Assumptions C84_linear_refuted.
Example C84_nonvacuous : exists lvls v, mfk_train 1 PConstant PConstant gs_qr rcond01 cond0 0 w_all = Some lvls /\
  (forall d, In d w_all -> k_ok (d_k d) 1 /\ k_corr (d_k d) = SquarExp) /\ mfk_derivative 1 PConstant PConstant SquarExp w_all lvls (fun _ => 2) 0 = Some v.
Proof.
  destruct w_train as [lvls T]. destruct (proj2 (mfk_deriv_some 1 PConstant gs_qr rcond01 cond0 0 w_all lvls T SquarExp PConstant (fun _ => 2) 0 ltac:(discriminate)) ltac:(repeat split; discriminate)) as [v Hv].
  exists lvls, v. split; [exact T|]. split; [|exact Hv]. intros d [<- |[<- |[<- |[]]]]; (split; [split; [discriminate|intros; lra]|reflexivity]).
Qed.

(** ** C85 *)
Theorem C85_theta_accepted_iff : forall nlvl d t, (exists m, check_theta nlvl d t = Some m) <->
  match t with TArray r c _ => r = nlvl /\ c = d | TList l => length l = d \/ length l = 1%nat \/ (length l = nlvl /\ d = 1%nat) end.
Proof. exact theta_iff. Qed.
Print Assumptions C85_theta_accepted_iff.
Theorem C85_theta_values : forall nlvl d l m, check_theta nlvl d (TList l) = Some m ->
  (length l = d -> forall i j, (i < nlvl)%nat -> (j < d)%nat -> m i j = nth j l 0) /\
  (length l <> d -> length l = 1%nat -> forall i j, (i < nlvl)%nat -> (j < d)%nat -> m i j = nth 0 l 0) /\
  (length l <> d -> length l <> 1%nat -> length l = nlvl -> forall i j, (i < nlvl)%nat -> (j < d)%nat -> m i j = nth i l 0).
Proof. exact theta_values. Qed.
Print Assumptions C85_theta_values.
(** one value per level, which the error message offers, is refused in two or more dimensions *)
Theorem C85_one_theta_per_level_refuted : forall nlvl d l, length l = nlvl -> (2 <= nlvl)%nat -> (2 <= d)%nat -> nlvl <> d -> check_theta nlvl d (TList l) = None.
Proof.
  intros nlvl d l L N D E. destruct (check_theta nlvl d (TList l)) as [m|] eqn:C; [|reflexivity].
  destruct (proj1 (theta_iff nlvl d (TList l)) (ex_intro _ m C)) as [H|[H|[_ H]]]; lia.
Qed.
Print Assumptions C85_one_theta_per_level_refuted.
Theorem C85_noise_accepted_iff : forall nlvl noise0, (exists l, check_noise nlvl noise0 = inr l) <->
  (length noise0 = nlvl /\ forall i, In i noise0 -> i = Some 1%nat) \/ (length noise0 = 1%nat /\ nlvl <> 1%nat).
Proof. exact noise_iff. Qed.
Print Assumptions C85_noise_accepted_iff.
Theorem C85_noise_shape : forall nlvl noise0 l, check_noise nlvl noise0 = inr l -> length l = nlvl /\ forall i, In i l -> i = Some 1%nat.
Proof. exact noise_shape. Qed.
Print Assumptions C85_noise_shape.
(** one number per level -- for one level the documented default -- raises TypeError *)
Theorem C85_one_number_per_level_refuted : forall nlvl noise0, (0 < nlvl)%nat -> length noise0 = nlvl -> (forall i, In i noise0 -> i = None) -> check_noise nlvl noise0 = inl PTypeError.
Proof. exact noise_flat. Qed.
Print Assumptions C85_one_number_per_level_refuted.
Example C85_nonvacuous : check_noise 1 [None] = inl PTypeError /\ check_noise 2 [None] = inr [Some 1; Some 1]%nat /\ check_noise 2 [Some 1; Some 1]%nat = inr [Some 1; Some 1]%nat /\
  check_noise 3 [Some 1; Some 1]%nat = inl PValueError /\ exists m, check_theta 2 1 (TList [1; 2]) = Some m /\ m 1%nat 0%nat = 2.
Proof. repeat split. eexists. split; reflexivity. Qed.
