(** C105: the theorems on train(). *)
From Coq Require Import Reals Arith Bool List Lia Lra FunctionalExtensionality.
From Coquelicot Require Import Coquelicot.
From Verif Require Import RSum Mat Psd Psd2 Tri_M Tri_P Kernels_M Kernels_P Krg_M Krg_S Krg_P Krg_P2 Krg_P3 Krg_P8 Krg_Qr Mfk_M Mfk_S Mfk_P Mfk_P2 Mfk_P3 Mfk_P4 Mfk_P6 Mfk_T Rmtc_S Het_M Het_S MfkVar_M MfkVar_S MfkVar_P1 MfkVar_P2 MfkVar_P3.
Import ListNotations.
Open Scope list_scope.
Open Scope R_scope.

Section G.
Variables (nx : nat) (po rho : poly) (all : list data) (lvls : list level) (k : nat).
Hypotheses (L : length lvls = length all) (Hk : (k < length all)%nat).
Notation lmean := (last_mean nx po rho).
Lemma g_pint x : (0 < k)%nat -> exists m, lmean (firstn k lvls) (stdx all x) = Some m /\ (lpred nx po rho all lvls k x - y_off all) / y_scale all = m.
Proof.
  intros H0. destruct (lmean (firstn k lvls) (stdx all x)) as [m|] eqn:E.
  - exists m. split; [reflexivity|]. unfold lpred, predict_intermediate, mfk_value. rewrite E. field. apply ys_nz.
  - apply last_none in E. assert (L2 : length (firstn k lvls) = 0%nat) by (rewrite E; reflexivity). rewrite firstn_length in L2. lia.
Qed.
Lemma g_basis x j : basis nx po rho (lmean (firstn k lvls) (stdx all x)) (stdx all x) j = lv_trend nx po rho all k (lpred nx po rho all lvls k) x j.
Proof. unfold lv_trend. destruct (Nat.eqb_spec k 0) as [-> | N]; [reflexivity|]. destruct (g_pint x ltac:(lia)) as (m & -> & ->). reflexivity. Qed.
Lemma g_N : (lq nx rho (firstn k lvls) + np nx po)%nat = lv_p nx po rho k.
Proof.
  unfold lv_p, np, lq, nq. f_equal. destruct (Nat.eqb_spec k 0) as [-> | N]; [reflexivity|]. destruct (firstn k lvls) eqn:F; [|reflexivity]. assert (L2 : length (firstn k lvls) = 0%nat) by (rewrite F; reflexivity). rewrite firstn_length in L2. lia.
Qed.
End G.

Section V.
Variables (nx : nat) (po rho : poly) (qr : nat -> nat -> mat -> mat * mat) (rcond : nat -> mat -> R) (condF : nat -> nat -> mat -> R).
Variables (nugget : R) (het : bool) (search : bool -> list obs -> nat -> kspec * R).
Notation fit h := (fit nx po rho qr rcond condF nugget h search).
Notation train h ov := (train nx po rho qr rcond condF nugget h ov search).
Notation pint := (predict_intermediate nx po rho).
Hypotheses (HQ : qr_contract qr) (HR : rcond_contract rcond).
Lemma t_given ov st : s_eval st = false -> fst (train het ov st) = st /\ forall all lvls, snd (train het ov st) = Some (all, lvls) ->
  mfk_train nx po rho qr rcond condF nugget all = Some lvls /\ length all = length (s_obs st) /\
  forall k o, nth_error (s_obs st) k = Some o -> exists noise, nth_error all k = Some (level_data o (o_y o) (fst (search false (s_obs st) k)) noise) /\ forall i, (i < o_nt o)%nat -> noise i = given_noise o i.
Proof.
  intros Ee. assert (Z : s_eval st && ov = false) by (rewrite Ee; reflexivity). destruct (train_off nx po rho qr rcond condF nugget het search ov st Z) as [A B]. split; [exact A|]. intros all lvls H. destruct (B all lvls H) as [-> F]. rewrite Ee in *.
  split; [apply (fit_plain nx po rho qr rcond condF nugget het search false); [reflexivity|exact F]|]. split; [apply datas_len|]. intros k o Ho.
  destruct (fit_noise nx po rho qr rcond condF nugget het search _ _ k o F Ho) as (v & Ev & Ed). exists v. split; [|apply (bcast_eq _ _ _ Ev)]. rewrite (datas_nth het search false _ k o Ho). rewrite <- Ed. reflexivity.
Qed.
Lemma t_estimated st : s_eval st = true -> fst (train false false st) = st /\ forall all lvls, snd (train false false st) = Some (all, lvls) ->
  mfk_train nx po rho qr rcond condF 0 all = Some lvls /\ length all = length (s_obs st) /\
  forall k o, nth_error (s_obs st) k = Some o -> nth_error all k = Some (level_data o (o_y o) (fst (search true (s_obs st) k)) (fun _ => snd (search true (s_obs st) k))).
Proof.
  intros Ee. assert (Z : s_eval st && false = false) by apply andb_false_r. destruct (train_off nx po rho qr rcond condF nugget false search false st Z) as [A B]. split; [exact A|]. intros all lvls H. destruct (B all lvls H) as [-> F]. rewrite Ee in *.
  split; [apply (fit_plain nx po rho qr rcond condF nugget false search true); [reflexivity|exact F]|]. split; [apply datas_len|]. intros k o Ho. rewrite (datas_nth false search true _ k o Ho). reflexivity.
Qed.
Lemma t_replicated st all lvls : s_eval st = true -> snd (train true false st) = Some (all, lvls) -> length all = length (s_obs st) /\
  forall k o s0, nth_error (s_obs st) k = Some o -> o_noise0 o = [s0] -> 0 <= s0 -> let d := level_data o (o_y o) (fst (search true (s_obs st) k)) (sample_noise nx all o s0) in
  forall x, exists w, lv_blup nx po rho 0 all lvls k d (lv_trend nx po rho all k (lpred nx po rho all lvls k) x) (lv_r nx all d x) w /\
  pint all lvls (S k) x = Some (dot (o_nt o) w (o_y o)).
Proof.
  intros Ee H. assert (Z : s_eval st && false = false) by apply andb_false_r. destruct (train_off nx po rho qr rcond condF nugget true search false st Z) as [_ B]. destruct (B all lvls H) as [Ea F]. rewrite Ee in *. clear B Z H.
  assert (La : length all = length (s_obs st)) by (rewrite Ea; apply datas_len). split; [exact La|]. intros k o s0 Ho E0 P0 d x.
  destruct (fit_nth nx po rho qr rcond condF nugget true search true _ _ F) as [Ll T]. destruct (T k o Ho) as (lv & Hl & It). rewrite <- Ea in It. clear T Ea. set (s := fst (search true (s_obs st) k)) in *.
  apply (merged_level nx po rho qr rcond condF all (firstn k lvls) o s s0 nugget) in It; try reflexivity; try exact E0.
  pose proof (train_level_ok nx po rho qr rcond condF 0 all HQ HR _ _ _ It) as K. assert (Hk : (k < length all)%nat) by (rewrite La; apply nth_error_Some; congruence). assert (LL : length lvls = length all) by congruence.
  set (done := firstn k lvls) in *. set (f := basis nx po rho (last_mean nx po rho done (stdx all x)) (stdx all x)).
  pose proof (mblup_raw nx po rho all done o s s0 P0 lv K f (stdx all x)) as Bl. fold d in Bl. change (raw nx all o s s0) with d in Bl.
  match type of Bl with blup _ _ _ _ _ _ ?w => set (ww := w) in * end. exists ww.
  assert (Bl2 : lv_blup nx po rho 0 all lvls k d (lv_trend nx po rho all k (lpred nx po rho all lvls k) x) (lv_r nx all d x) ww).
  { unfold lv_blup. rewrite <- (g_N nx po rho all lvls k LL Hk). change (d_nt d) with (o_nt o). apply (blup_ext (o_nt o) _ (lv_corr nx 0 all d) _ (lF nx po rho all done d) _ _ f); [reflexivity| | |exact Bl].
    - intros i j _ _. unfold lF, lv_F. apply (g_basis nx po rho all lvls k LL Hk).
    - intros j _. apply (g_basis nx po rho all lvls k LL Hk). }
  split; [exact Bl2|]. unfold predict_intermediate, mfk_value. rewrite (firstn_snoc lvls k lv Hl), last_snoc. fold done. f_equal. rewrite (mvalue nx po rho all done o s s0 lv K). fold f. change (dot (o_nt o) ww (fun i => (o_y o i - y_off all) / y_scale all) * y_scale all + y_off all = dot (o_nt o) ww (o_y o)).
  assert (U : rsum (o_nt o) ww = 1).
  { destruct Bl2 as [U _]. set (c := (if Nat.eqb k 0 then 0 else n_regr rho nx)%nat). assert (Hc : (c < lv_p nx po rho k)%nat) by (unfold c, lv_p; pose proof (n_regr_pos po nx); lia). pose proof (U c Hc) as Uc. unfold c in Uc at 2. rewrite trend_const in Uc. rewrite <- Uc.
    change (d_nt d) with (o_nt o). apply rsum_ext. intros a Ha. unfold lv_F, c. rewrite trend_const. ring. }
  transitivity (dot (o_nt o) ww (fun i => (o_y o i - y_off all) / y_scale all) * y_scale all + y_off all * rsum (o_nt o) ww); [rewrite U; ring|].
  unfold dot. rewrite <- rsum_scal_r, <- rsum_scal_l, <- rsum_plus. apply rsum_ext. intros a Ha. field. apply ys_nz.
Qed.
(** the two stages *)
Lemma t_stages st all lvls : s_eval st = true -> snd (train het true st) = Some (all, lvls) -> exists all1 lvls1,
  snd (train het false st) = Some (all1, lvls1) /\ mfk_train nx po rho qr rcond condF nugget all = Some lvls /\ length all = length (s_obs st) /\
  (forall k o, nth_error (s_obs st) k = Some o -> exists s noise, nth_error all k = Some (level_data o (fun i => lpred nx po rho all1 lvls1 (S k) (o_X o i)) s noise) /\ forall i, (i < o_nt o)%nat -> noise i = given_noise o i) /\
  s_eval (fst (train het true st)) = false /\ length (s_obs (fst (train het true st))) = length (s_obs st) /\
  (forall k o, nth_error (s_obs st) k = Some o -> nth_error (s_obs (fst (train het true st))) k = Some (with_y o (fun i => lpred nx po rho all1 lvls1 (S k) (o_X o i)))).
Proof.
  intros Ee H. destruct (train_on nx po rho qr rcond condF nugget het search true st ltac:(rewrite Ee; reflexivity) all lvls H) as (l1 & F1 & Es & Ea & F2). cbv zeta in *.
  exists (datas het search true (s_obs st)), l1. split; [unfold MfkVar_M.train; rewrite Ee, F1; reflexivity|].
  assert (R : forall k o, nth_error (s_obs st) k = Some o -> nth_error (s_obs (fst (train het true st))) k = Some (with_y o (fun i => lpred nx po rho (datas het search true (s_obs st)) l1 (S k) (o_X o i)))).
  { intros k o Ho. rewrite Es. cbn [s_obs]. apply (repl_nth nx po rho _ _ (s_obs st) 0 k o Ho). }
  split; [rewrite Ea; apply (fit_plain nx po rho qr rcond condF nugget het search false); [reflexivity|exact F2]|].
  split; [rewrite Ea, datas_len; apply repl_len|]. split; [|split; [rewrite Es; reflexivity|split; [rewrite Es; cbn [s_obs]; apply repl_len|exact R]]].
  intros k o Ho. pose proof (R k o Ho) as Rk. rewrite Es in Rk. cbn [s_obs] in Rk. destruct (fit_noise nx po rho qr rcond condF nugget het search _ _ k _ F2 Rk) as (v & Ev & Ed).
  exists (fst (search false (replaced nx po rho (datas het search true (s_obs st)) l1 0 (s_obs st)) k)), v. split; [|apply (bcast_eq _ _ _ Ev)]. rewrite Ea, (datas_nth het search false _ k _ Rk), <- Ed. reflexivity.
Qed.
Lemma t_reproduces st all lvls all1 lvls1 : s_eval st = true -> snd (train het true st) = Some (all, lvls) -> snd (train het false st) = Some (all1, lvls1) ->
  forall k o i, nth_error (s_obs st) k = Some o -> (i < o_nt o)%nat -> nugget + given_noise o i = 0 -> pint all lvls (S k) (o_X o i) = pint all1 lvls1 (S k) (o_X o i).
Proof.
  intros Ee H H1 k o i Ho Hi Z. destruct (t_stages st all lvls Ee H) as (a1 & l1 & H1' & T & _ & D & _). rewrite H1 in H1'. injection H1' as <- <-.
  destruct (D k o Ho) as (s & noise & Hd & Hn). pose proof (C50_interpolates nx po rho qr rcond condF nugget all lvls HQ HR T k _ Hd i Hi) as Q. cbn [d_noise level_data d_y d_X] in Q. rewrite Hn in Q by exact Hi. rewrite (Q Z).
  unfold lpred. destruct (pint all1 lvls1 (S k) (o_X o i)) as [v|] eqn:E; [reflexivity|]. exfalso.
  unfold predict_intermediate, mfk_value in E. destruct (last_mean nx po rho (firstn (S k) lvls1) (stdx all1 (o_X o i))) eqn:E2; [discriminate|]. apply last_none in E2.
  assert (L2 : length (firstn (S k) lvls1) = 0%nat) by (rewrite E2; reflexivity). rewrite firstn_length in L2.
  unfold MfkVar_M.train in H1. rewrite Ee in H1. destruct (fit het true (s_obs st)) as [lf|] eqn:F1; [|discriminate]. cbn in H1. injection H1 as <- <-. destruct (fit_nth _ _ _ _ _ _ _ _ _ _ _ _ F1) as [Ll _].
  assert (k < length (s_obs st))%nat by (apply nth_error_Some; congruence). lia.
Qed.
Lemma t_repeated_fails st : s_eval st = true -> forall k o, nth_error (s_obs st) k = Some o -> repeated nx nugget o -> snd (train het true st) = None.
Proof.
  intros Ee k o Ho (i & j & Hi & Hj & Nij & S & Zi & Zj). destruct (snd (train het true st)) as [[all lvls]|] eqn:H; [|reflexivity]. exfalso.
  destruct (t_stages st all lvls Ee H) as (a1 & l1 & _ & T & _ & D & _). destruct (D k o Ho) as (s & noise & Hd & Hn).
  apply (repeated_fails nx po rho qr rcond condF nugget all lvls HQ HR T k _ i j Hd Hi Hj Nij S); cbn [d_noise level_data]; rewrite Hn by assumption; assumption.
Qed.
Lemma t_failed_store st all1 lvls1 : s_eval st = true -> snd (train het false st) = Some (all1, lvls1) -> s_eval (fst (train het true st)) = false /\ length (s_obs (fst (train het true st))) = length (s_obs st) /\
  forall k o, nth_error (s_obs st) k = Some o -> nth_error (s_obs (fst (train het true st))) k = Some (with_y o (fun i => lpred nx po rho all1 lvls1 (S k) (o_X o i))).
Proof.
  intros Ee H1. unfold MfkVar_M.train in *. rewrite Ee in *. destruct (fit het true (s_obs st)) as [l1|]; [|discriminate]. cbn in H1. injection H1 as <- <-. cbn [andb fst s_eval s_obs]. split; [reflexivity|]. split; [apply repl_len|].
  intros k o Ho. apply (repl_nth nx po rho _ _ (s_obs st) 0 k o Ho).
Qed.
End V.
