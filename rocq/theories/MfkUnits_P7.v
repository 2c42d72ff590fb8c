(** Units of each level separately: the whole model. *)
From Coq Require Import Reals Arith Bool List Lia Lra FunctionalExtensionality.
From Verif Require Import RSum Mat Tri_M Tri_P Kernels_M Krg_M Krg_S Krg_P Krg_P2 Rmtc_S Het_S Mfk_M Mfk_S Mfk_P Mfk_P2 MfkUnits_S MfkUnits_P4 MfkUnits_P5 MfkUnits_P6.
Import ListNotations.
Open Scope list_scope.
Open Scope R_scope.
Lemma units_cat a b c l : forall k, cat (level_units a b k l) (fun d i => d_X d i c) = cat l (fun d i => d_X d i c).
Proof. induction l as [|d l IH]; intros k; [reflexivity|]. cbn [level_units cat]. rewrite IH. reflexivity. Qed.
Lemma units_total a b l : forall k, total (level_units a b k l) = total l.
Proof. unfold total. induction l as [|d l IH]; intros k; [reflexivity|]. cbn [level_units fold_right]. rewrite IH. reflexivity. Qed.
Lemma units_nth a b l : forall k m, nth_error (level_units a b k l) m = option_map (in_units (a (k + m)%nat) (b (k + m)%nat)) (nth_error l m).
Proof. induction l as [|d l IH]; intros k [|m]; try reflexivity; cbn [level_units nth_error option_map]; [rewrite Nat.add_0_r; reflexivity|]. rewrite IH. replace (S k + m)%nat with (k + S m)%nat by lia. reflexivity. Qed.
Lemma units_length a b l : forall k, length (level_units a b k l) = length l.
Proof. induction l as [|d l IH]; intros k; [reflexivity|]. cbn [level_units length]. rewrite IH. reflexivity. Qed.
Lemma units_std a b k l : stdx (level_units a b k l) = stdx l.
Proof. apply functional_extensionality. intros x. apply functional_extensionality. intros c. unfold stdx, x_off, x_scale. rewrite units_cat, units_total. reflexivity. Qed.
Lemma firstn_S {A} (l : list A) k v : nth_error l k = Some v -> firstn (S k) l = firstn k l ++ [v].
Proof. revert k. induction l as [|h l IH]; intros [|k] E; try discriminate; cbn in E |- *; [injection E as ->; reflexivity|]. f_equal. apply IH. exact E. Qed.
Lemma derivs_app nx po rho x kx a : forall dp c, derivs nx po rho dp (a ++ c) x kx = derivs nx po rho dp a x kx ++ derivs nx po rho (match rev (derivs nx po rho dp a x kx) with [] => dp | m :: _ => Some m end) c x kx.
Proof.
  induction a as [|lv a IH]; intros dp c; [reflexivity|]. cbn [app derivs]. rewrite IH. f_equal. f_equal. cbn [rev]. f_equal. destruct (rev (derivs nx po rho _ a x kx)); reflexivity.
Qed.
Definition last_d nx po rho lvls x kx : option R := match rev (derivs nx po rho None lvls x kx) with [] => None | d :: _ => Some d end.
Lemma last_d_snoc nx po rho x kx a lv : last_d nx po rho (a ++ [lv]) x kx = Some (level_deriv nx po rho (last_d nx po rho a x kx) lv x kx).
Proof. unfold last_d at 1. rewrite derivs_app, rev_app_distr. cbn [derivs rev app]. unfold last_d. destruct (rev (derivs nx po rho None a x kx)); reflexivity. Qed.
Lemma qof_done nx po rho done x : qof nx rho (last_mean nx po rho done x) = lq nx rho done.
Proof.
  unfold lq, qof. destruct (last_mean nx po rho done x) as [m|] eqn:E.
  - destruct done; [discriminate E|reflexivity].
  - apply last_none in E. rewrite E. reflexivity.
Qed.
Lemma deriv_last nx po rho corr : (rho = PConstant /\ forall all lvls x kx, mfk_derivative nx po rho corr all lvls x kx = option_map (fun d => d * y_scale all / x_scale all kx) (last_d nx po rho lvls (stdx all x) kx))
  \/ (forall all lvls x kx, mfk_derivative nx po rho corr all lvls x kx = None).
Proof.
  unfold mfk_derivative, last_d. destruct corr; try (right; reflexivity). destruct po; try (right; reflexivity); destruct rho; try (right; reflexivity); left; (split; [reflexivity|]); intros; destruct (rev _); reflexivity.
Qed.
Lemma nth_0 {A} (l : list A) v : nth_error l 0 = Some v -> exists r, l = v :: r.
Proof. destruct l; [discriminate|]. intros [= ->]. eexists. reflexivity. Qed.
Section U.
Variables (nx : nat) (po rho : poly) (qr : nat -> nat -> mat -> mat * mat) (rcond : nat -> mat -> R) (condF : nat -> nat -> mat -> R) (nugget : R).
Hypotheses (HQ : qr_contract qr) (HR : rcond_contract rcond) (HD : (degree rho <= degree po)%nat).
Variables (a b : nat -> R) (all : list data).
Hypothesis Ha : forall k, a k <> 0.
Let all' := level_units a b 0 all.
Let al k := a k * y_scale all / y_scale all'.
Let be k := (a k * y_off all + b k - y_off all') / y_scale all'.
Variables (lvls lvls' : list level).
Hypotheses (T : mfk_train nx po rho qr rcond condF nugget all = Some lvls) (T' : mfk_train nx po rho qr rcond condF nugget all' = Some lvls').
Lemma al_nz k : al k <> 0.
Proof. unfold al. assert (A : y_scale all <> 0) by apply scale1_nz. assert (B : y_scale all' <> 0) by apply scale1_nz. apply Rmult_integral_contrapositive_currified; [apply Rmult_integral_contrapositive_currified; [apply Ha|exact A]|apply Rinv_neq_0_compat; exact B]. Qed.
Lemma Ex : stdx all' = stdx all. Proof. apply units_std. Qed.
Lemma at_level k d : nth_error all k = Some d -> exists lv lv', nth_error lvls k = Some lv /\ nth_error lvls' k = Some lv' /\
  lvl_ok nx po rho nugget all (firstn k lvls) d lv /\ lvl_ok nx po rho nugget all' (firstn k lvls') (in_units (a k) (b k) d) lv'.
Proof.
  intros E. destruct (train_nth nx po rho qr rcond condF nugget all lvls T) as [_ H]. destruct (train_nth nx po rho qr rcond condF nugget all' lvls' T') as [_ H'].
  destruct (H k d E) as (lv & E1 & E2). assert (Ed : nth_error all' k = Some (in_units (a k) (b k) d)) by (unfold all'; rewrite units_nth, E; reflexivity).
  destruct (H' k _ Ed) as (lv' & E1' & E2'). exists lv, lv'. split; [exact E1|]. split; [exact E1'|]. split; [exact (train_level_ok nx po rho qr rcond condF nugget all HQ HR _ d lv E2)|exact (train_level_ok nx po rho qr rcond condF nugget all' HQ HR _ _ lv' E2')].
Qed.
Lemma len : length lvls = length all. Proof. apply (train_nth nx po rho qr rcond condF nugget all lvls T). Qed.
Lemma len' : length lvls' = length all. Proof. rewrite (proj1 (train_nth nx po rho qr rcond condF nugget all' lvls' T')). apply units_length. Qed.
Lemma lq_firstn (l : list level) k : (S k <= length l)%nat -> lq nx rho (firstn (S k) l) = nq nx rho.
Proof. destruct l; cbn [length]; [lia|]. reflexivity. Qed.
(** coefficients of the level below (identity below the first) *)
Definition pal k : R := match k with O => 1 | S k => al k end.
Definition pbe k : R := match k with O => 0 | S k => be k end.
Lemma pal_nz k : pal k <> 0. Proof. destruct k; [apply R1_neq_R0|apply al_nz]. Qed.
Lemma lq_eq k : (k < length all)%nat -> lq nx rho (firstn k lvls') = lq nx rho (firstn k lvls).
Proof. destruct k; intros H; [reflexivity|]. rewrite !lq_firstn by (rewrite ?len, ?len'; lia). reflexivity. Qed.
Lemma last_mean_k k : (k <= length all)%nat -> forall x, last_mean nx po rho (firstn k lvls') x = option_map (fun v => pal k * v + pbe k) (last_mean nx po rho (firstn k lvls) x).
Proof.
  induction k as [|k IH]; intros Hk x; [reflexivity|]. destruct (nth_error all k) as [d|] eqn:E; [|apply nth_error_None in E; lia].
  destruct (at_level k d E) as (lv & lv' & E1 & E1' & K & K'). rewrite (firstn_S _ _ _ E1), (firstn_S _ _ _ E1'), !last_snoc. cbn [option_map pal pbe]. f_equal. rewrite IH by lia.
  apply (mean6 nx po rho nugget HD all all' (a k) (b k) (pal k) (pbe k) (firstn k lvls) (firstn k lvls') d lv lv' Ex (pal_nz k) (lq_eq k ltac:(lia)) (IH ltac:(lia)) K K'). apply qof_done.
Qed.
Lemma last_d_k k : rho = PConstant -> (k <= length all)%nat -> forall x kx, last_d nx po rho (firstn k lvls') x kx = option_map (fun v => pal k * v) (last_d nx po rho (firstn k lvls) x kx).
Proof.
  intros Er. induction k as [|k IH]; intros Hk x kx; [reflexivity|]. destruct (nth_error all k) as [d|] eqn:E; [|apply nth_error_None in E; lia].
  destruct (at_level k d E) as (lv & lv' & E1 & E1' & K & K'). rewrite (firstn_S _ _ _ E1), (firstn_S _ _ _ E1'), !last_d_snoc. cbn [option_map pal]. f_equal. rewrite IH by lia.
  apply (deriv6 nx po rho nugget HD all all' (a k) (b k) (pal k) (pbe k) (firstn k lvls) (firstn k lvls') d lv lv' Ex (pal_nz k) (lq_eq k ltac:(lia)) (last_mean_k k ltac:(lia)) K K'); [|exact Er].
  destruct k as [|k]; [reflexivity|]. destruct (nth_error all k) as [e|] eqn:E2; [|apply nth_error_None in E2; lia]. destruct (at_level k e E2) as (w & w' & E3 & _ & _). rewrite (lq_firstn lvls k) by (rewrite len; lia). rewrite (firstn_S _ _ _ E3), last_d_snoc. reflexivity.
Qed.
Lemma ys_ne : y_scale all <> 0. Proof. apply scale1_nz. Qed.
Lemma ys_ne' : y_scale all' <> 0. Proof. apply scale1_nz. Qed.
Lemma value_k k x : (k < length all)%nat -> predict_intermediate nx po rho all' lvls' (S k) x = option_map (fun v => a k * v + b k) (predict_intermediate nx po rho all lvls (S k) x).
Proof.
  intros Hk. unfold predict_intermediate, mfk_value. rewrite last_mean_k by lia. rewrite Ex. destruct (last_mean nx po rho (firstn (S k) lvls) (stdx all x)) as [m|]; [|reflexivity]. cbn [option_map pal pbe]. f_equal. unfold al, be. pose proof ys_ne. pose proof ys_ne'. field; try split; assumption.
Qed.
Lemma full_value x k : length all = S k -> mfk_value nx po rho all' lvls' x = option_map (fun v => a k * v + b k) (mfk_value nx po rho all lvls x).
Proof.
  intros E. pose proof (value_k k x ltac:(lia)) as V. unfold predict_intermediate in V. rewrite !firstn_all2 in V by (rewrite ?len, ?len'; lia). exact V.
Qed.
Lemma full_deriv corr x kx k : length all = S k -> mfk_derivative nx po rho corr all' lvls' x kx = option_map (fun v => a k * v) (mfk_derivative nx po rho corr all lvls x kx).
Proof.
  intros E. destruct (deriv_last nx po rho corr) as [(Er & H)|H]; rewrite !H; [|reflexivity]. rewrite Ex. pose proof (last_d_k (S k) Er ltac:(lia) (stdx all x) kx) as V. rewrite !firstn_all2 in V by (rewrite ?len, ?len'; lia). rewrite V.
  destruct (last_d nx po rho lvls (stdx all x) kx) as [m|]; [|reflexivity]. cbn [option_map pal]. f_equal. unfold al. pose proof ys_ne. pose proof ys_ne'.
  replace (x_scale all' kx) with (x_scale all kx) by (unfold x_scale, all'; rewrite units_cat, units_total; reflexivity). assert (x_scale all kx <> 0) by apply scale1_nz. field; repeat split; assumption.
Qed.
Lemma vars_k inv pls x k : inv_contract inv -> (k < 2)%nat -> nth_error (mfk_variances nx po rho inv pls all' lvls' x) k = option_map (fun v => a k ^ 2 * v) (nth_error (mfk_variances nx po rho inv pls all lvls x) k).
Proof.
  intros HI Hk. unfold mfk_variances. rewrite Ex. set (z := stdx all x). rewrite !nth_error_map.
  pose proof ys_ne as Y. pose proof ys_ne' as Y'.
  destruct (nth_error all 0) as [d0|] eqn:E0.
  2:{ apply nth_error_None in E0. assert (A1 : lvls = []) by (apply length_zero_iff_nil; rewrite len; lia). assert (A2 : lvls' = []) by (apply length_zero_iff_nil; rewrite len'; lia). rewrite A1, A2. cbn [mses]. destruct k; reflexivity. }
  assert (L0 : (0 < length all)%nat) by (apply nth_error_Some; rewrite E0; discriminate).
  destruct (at_level 0 d0 E0) as (v & v' & E1 & E1' & K & K'). pose proof Ex as EX.
  pose proof (first6 nx po rho nugget HD all all' (a 0%nat) (b 0%nat) 1 0 [] [] d0 v v' EX R1_neq_R0 eq_refl (fun _ => eq_refl) K K' z eq_refl) as F1.
  pose proof (mean6 nx po rho nugget HD all all' (a 0%nat) (b 0%nat) 1 0 [] [] d0 v v' EX R1_neq_R0 eq_refl (fun _ => eq_refl) K K' None z eq_refl) as M1. cbn [option_map] in M1. fold (al 0%nat) in F1, M1. fold (be 0%nat) in M1.
  destruct (nth_0 _ _ E1) as (r & EL). destruct (nth_0 _ _ E1') as (r' & EL'). rewrite EL, EL'. cbn [mses].
  destruct k as [|k].
  - cbn [nth_error option_map]. f_equal. rewrite F1. unfold al. field; try split; assumption.
  - assert (k = 0)%nat as -> by lia. cbn [nth_error].
    destruct (nth_error all 1) as [d1|] eqn:G0.
    2:{ apply nth_error_None in G0. pose proof len as L1. pose proof len' as L2. rewrite EL in L1. rewrite EL' in L2. cbn [length] in L1, L2. destruct r; [|cbn in L1; lia]. destruct r'; [|cbn in L2; lia]. reflexivity. }
    assert (L1 : (1 < length all)%nat) by (apply nth_error_Some; rewrite G0; discriminate).
    destruct (at_level 1 d1 G0) as (w & w' & G1 & G1' & W & W'). pose proof (last_mean_k 1 ltac:(lia)) as LM. pose proof (lq_eq 1 L1) as LQ. rewrite EL in W, LM, LQ, G1. rewrite EL' in W', LM, LQ, G1'. cbn [firstn] in W, W', LM, LQ.
    destruct r as [|w1 r]; [discriminate|]. destruct r' as [|w1' r']; [discriminate|]. cbn in G1, G1'. injection G1 as ->. injection G1' as ->. cbn [next_mses nth_error option_map]. f_equal.
    rewrite M1, F1. rewrite (next6 nx po rho nugget HD all all' (a 1%nat) (b 1%nat) (al 0%nat) (be 0%nat) [v] [v'] d1 w w' EX (al_nz 0) LQ LM W W' inv pls (level_mean nx po rho None v z) (first_mse nx po (y_scale all) v z) z HI eq_refl). field; try split; assumption.
Qed.
End U.
