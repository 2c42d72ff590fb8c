(** counterexamples for C50 and C84, and the checks C51, C85 *)
From Coq Require Import Reals Arith Bool List Lia Lra FunctionalExtensionality.
From Coquelicot Require Import Coquelicot.
From Verif Require Import RSum Mat Tri_M Tri_P Kernels_M Krg_M Krg_S Krg_P Krg_P2 Krg_P3 Krg_P4 Krg_Qr Rbf_P Poly_P Mfk_M Mfk_S Mfk_P Mfk_P2 Mfk_P3 Mfk_P4 Mfk_P5.
Import ListNotations.
Open Scope list_scope.
Open Scope R_scope.

(** ** the error of the derivative with a linear trend, one level *)
Section One.
Variables (nx : nat) (qr : nat -> nat -> mat -> mat * mat) (rcond : nat -> mat -> R) (condF : nat -> nat -> mat -> R) (nugget : R) (d : data) (lvls : list level).
Hypotheses (HQ : qr_contract qr) (HR : rcond_contract rcond) (E : mfk_train nx PLinear PConstant qr rcond condF nugget [d] = Some lvls).
Hypothesis (HK : k_ok (d_k d) nx /\ k_corr (d_k d) = SquarExp).
Lemma df_sum kx (b : vec) : (kx < nx)%nat -> rsum (1 + nx) (fun j => mfk_df PLinear j * b j) - rsum (1 + nx) (fun j => dfv PLinear j kx * b j) = rsum nx (fun j => if Nat.eqb j kx then 0 else b (1 + j)%nat).
Proof.
  intros Hk. rewrite <- rsum_minus.
  assert (S : forall m f, rsum (1 + m) f = f 0%nat + rsum m (fun j => f (1 + j)%nat)). { induction m as [|m IH]; intros f; [cbn; ring|]. change (1 + S m)%nat with (S (1 + m)). cbn [rsum]. rewrite IH. cbn [rsum Nat.add]. ring. }
  rewrite S. cbn [mfk_df Nat.eqb]. unfold dfv at 1, df. replace (Nat.eqb 0 (kx + 1)) with false by (symmetry; apply Nat.eqb_neq; lia). rewrite (rsum_ext nx _ (fun j => if Nat.eqb j kx then 0 else b (1 + j)%nat)); [ring|].
  intros j Hj. unfold dfv, df. destruct (Nat.eqb_spec j kx) as [-> | N].
  - replace (Nat.eqb (1 + kx) (kx + 1)) with true by (symmetry; apply Nat.eqb_eq; lia). cbn [mfk_df Nat.eqb Nat.add]. ring.
  - replace (Nat.eqb (1 + j) (kx + 1)) with false by (symmetry; apply Nat.eqb_neq; lia). cbn [mfk_df Nat.eqb Nat.add]. ring.
Qed.
Lemma linear_error x kx v : (kx < nx)%nat -> mfk_derivative nx PLinear PConstant SquarExp [d] lvls x kx = Some v ->
  exists b r, gls_opt (d_nt d) (1 + nx) (lv_corr nx nugget [d] d) (lv_F nx PLinear PConstant [d] lvls 0 d) (lv_y [d] d) b r /\
  is_partial (value nx PLinear [d] lvls) x kx (v - rsum nx (fun j => if Nat.eqb j kx then 0 else b (1 + j)%nat) * y_scale [d] / x_scale [d] kx).
Proof.
  intros Hk Hv. destruct (get nx PLinear PConstant qr rcond condF nugget [d] lvls HQ HR E 0 d eq_refl) as (lv & Hl & K). pose proof (len_lvls _ _ _ _ _ _ _ _ _ E) as L. cbn in L.
  destruct lvls as [|lv' [|]]; try discriminate. cbn in Hl. injection Hl as ->. cbn [firstn] in K.
  exists (p_beta (l_par lv)). eexists. split.
  - pose proof (gls_ok nx PLinear PConstant nugget [d] [] d lv K) as G. eapply (to_gls nx PLinear PConstant qr rcond condF nugget [d] [lv] E 0 d lv eq_refl eq_refl K). exact G.
  - assert (P : is_partial (fun z => level_mean nx PLinear PConstant ((fun _ : vec => @None R) z) lv z) (stdx [d] x) kx (true_deriv nx PLinear None lv (stdx [d] x) kx)).
    { assert (Ek : l_k lv = d_k d) by (rewrite (lk_lv _ _ _ _ _ _ _ _ K); reflexivity). apply (level_partial nx PLinear ltac:(discriminate) (fun _ => None) (fun _ => 0) None lv (stdx [d] x) kx Hk); try (rewrite Ek; apply HK). left. split; [reflexivity|]. split; [reflexivity|]. rewrite (q_eq _ _ _ _ _ _ _ _ K). reflexivity. }
    apply (to_value nx PLinear [d] [lv]) in P; [|discriminate].
    match type of P with is_partial _ _ _ ?a => match goal with |- is_partial _ _ _ ?b => replace b with a; [exact P|] end end.
    unfold mfk_derivative in Hv. cbn [derivs rev app] in Hv. cbv zeta in Hv. assert (Ev : v = level_deriv nx PLinear PConstant None lv (stdx [d] x) kx * y_scale [d] / x_scale [d] kx) by congruence. rewrite Ev.
    pose proof (df_sum kx (p_beta (l_par lv)) Hk) as D. unfold level_deriv, true_deriv. rewrite (q_eq _ _ _ _ _ _ _ _ K). cbn [lq Nat.add dbasis tbasis]. unfold np. cbn [n_regr]. unfold dot at 1 3. cbn [Nat.add] in D. set (s1 := rsum (S nx) (fun j => mfk_df PLinear j * _)) in *. set (s2 := rsum (S nx) (fun j => dfv PLinear j kx * _)) in *.
    rewrite <- D. set (w := 2 * _ * _). change (rsum (1 + nx) (fun i : nat => dfv PLinear i kx * p_beta (l_par lv) i)) with s2. change (rsum (1 + nx) (fun i : nat => mfk_df PLinear i * p_beta (l_par lv) i)) with s1. unfold Rdiv. ring.
Qed.
End One.

(** ** training succeeds with the oracles of Krg_Qr.v *)
Lemma level_gs nx po rho nugget all done d : (np nx po + lq nx rho done < d_nt d)%nat ->
  mpd (d_nt d) (corr_matrix (d_k d) nx (d_nt d) (fun i => stdx all (d_X d i)) nugget (d_noise d)) ->
  (forall b : vec, (forall a, (a < d_nt d)%nat -> mv (lq nx rho done + np nx po) (lF nx po rho all done d) b a = 0) -> forall j, (j < lq nx rho done + np nx po)%nat -> b j = 0) ->
  exists lv, train_level nx po rho gs_qr rcond01 cond0 nugget all done d = Some lv.
Proof.
  intros Hp PD Inj. unfold train_level. cbv zeta. change (match done with [] => 0%nat | _ :: _ => nq nx rho end) with (lq nx rho done). destruct (Nat.leb_spec (d_nt d) (np nx po + lq nx rho done)) as [|_]; [lia|].
  destruct (fit_gs (d_nt d) (lq nx rho done + np nx po) (INR (d_nt d) - INR (np nx po) - INR (lq nx rho done)) _ _ (fun i => (d_y d i - y_off all) / y_scale all) (y_scale all) ltac:(lia) (corr_matrix_sym (d_k d) nx (d_nt d) (fun i => stdx all (d_X d i)) nugget (d_noise d)) PD Inj) as (v & pr & Ef).
  unfold lF in Ef. rewrite Ef. eexists. reflexivity.
Qed.
Lemma std_distinct nx all (X : nat -> vec) n : (forall i j, (i < n)%nat -> (j < n)%nat -> i <> j -> ~ (forall k, (k < nx)%nat -> X i k = X j k)) ->
  forall i j, (i < n)%nat -> (j < n)%nat -> i <> j -> ~ (forall k, (k < nx)%nat -> stdx all (X i) k = stdx all (X j) k).
Proof.
  intros D i j Hi Hj N H. apply (D i j Hi Hj N). intros k Hk. specialize (H k Hk). unfold stdx in H. assert (S : x_scale all k <> 0) by apply scale1_nz.
  apply (Rmult_eq_compat_r (x_scale all k)) in H. unfold Rdiv in H. rewrite !Rmult_assoc, Rinv_l, !Rmult_1_r in H by exact S. lra.
Qed.
(** ** three levels with the same three points *)
Definition w_k : kspec := KStd SquarExp (fun _ => 1).
Definition w_X (i : nat) : vec := fun _ => INR i.
Definition w_d (y : vec) : data := {| d_nt := 3; d_X := w_X; d_y := y; d_k := w_k; d_noise := (fun _ => 0) |}.
Definition w_all : list data := [w_d (fun i => if Nat.eqb i 1 then 1 else 0); w_d (fun i => if Nat.eqb i 1 then 1 else 0); w_d (fun i => if Nat.eqb i 2 then 1 else 0)].
Lemma w_kok : k_ok w_k 1. Proof. split; [discriminate|]. intros. lra. Qed.
Lemma w_pd y : mpd 3 (corr_matrix (d_k (w_d y)) 1 3 (fun i => stdx w_all (d_X (w_d y) i)) 0 (d_noise (w_d y))).
Proof.
  apply corr_matrix_pd_distinct; [discriminate|intros; lra| |intros; cbn; lra]. apply (std_distinct 1 w_all w_X 3).
  intros i j Hi Hj N H. specialize (H 0%nat ltac:(lia)). unfold w_X in H. apply INR_eq in H. congruence.
Qed.
Definition w_m (y : vec) (i : nat) : R := (y i - y_off w_all) / y_scale w_all.
Lemma w_inj (y : vec) (b0 b1 : R) : y 0%nat <> y 1%nat -> (forall i, (i < 3)%nat -> w_m y i * b0 + b1 = 0) -> b0 = 0 /\ b1 = 0.
Proof.
  intros N H. pose proof (H 0%nat ltac:(lia)) as H0. pose proof (H 1%nat ltac:(lia)) as H1. assert (D : (w_m y 1%nat - w_m y 0%nat) * b0 = 0) by lra.
  assert (Q : w_m y 1%nat - w_m y 0%nat <> 0). { unfold w_m, Rdiv. intros Z. apply N. assert (I : / y_scale w_all <> 0) by (apply Rinv_neq_0_compat, ys_nz). assert (Q : (y 1%nat - y 0%nat) * / y_scale w_all = 0) by lra. apply Rmult_integral in Q. destruct Q as [Q|Q]; [lra|contradiction]. }
  apply Rmult_integral in D. destruct D as [D|D]; [contradiction|]. split; [exact D|]. rewrite D in H0. lra.
Qed.
Lemma w_step done d0 lv0 dd : train_level 1 PConstant PConstant gs_qr rcond01 cond0 0 w_all done (w_d d0) = Some lv0 -> d0 0%nat <> d0 1%nat ->
  (forall i, (i < 3)%nat -> last_mean 1 PConstant PConstant (done ++ [lv0]) (stdx w_all (w_X i)) = Some (w_m d0 i)) /\
  exists lv, train_level 1 PConstant PConstant gs_qr rcond01 cond0 0 w_all (done ++ [lv0]) (w_d dd) = Some lv.
Proof.
  intros T N. apply (train_level_ok 1 PConstant PConstant gs_qr rcond01 cond0 0 w_all gs_contract rcond01_contract) in T.
  assert (M : forall i, (i < 3)%nat -> last_mean 1 PConstant PConstant (done ++ [lv0]) (stdx w_all (w_X i)) = Some (w_m d0 i)).
  { intros i Hi. rewrite last_snoc. f_equal. pose proof (level_interp 1 PConstant PConstant 0 w_all done (w_d d0) lv0 T i Hi) as I. cbn [d_X w_d d_noise] in I. rewrite I. unfold lv_y, w_m. cbn [d_y w_d]. ring. }
  split; [exact M|]. assert (Q : lq 1 PConstant (done ++ [lv0]) = 1%nat) by (destruct done; reflexivity). apply level_gs; [rewrite Q; cbn; lia|apply w_pd|]. rewrite Q. intros b Hb. cbn [d_nt w_d np n_regr Nat.add] in *.
  destruct (w_inj d0 (b 0%nat) (b 1%nat) N) as [B0 B1].
  - intros i Hi. specialize (Hb i Hi). unfold mv, lF in Hb. cbn [d_X w_d] in Hb. rewrite (M i Hi) in Hb. unfold basis, nq, np in Hb. cbn [n_regr Nat.add rsum Nat.ltb Nat.leb Nat.sub] in Hb. rewrite !fvec_0 in Hb. lra.
  - intros j Hj. unfold np in Hj. cbn in Hj. destruct j as [|[|j]]; [exact B0|exact B1|lia].
Qed.
Lemma w_train : exists lvls, mfk_train 1 PConstant PConstant gs_qr rcond01 cond0 0 w_all = Some lvls.
Proof.
  unfold mfk_train. cbn [w_all train_levels].
  destruct (level_gs 1 PConstant PConstant 0 w_all [] (w_d (fun i => if Nat.eqb i 1 then 1 else 0))) as [lv0 T0]; [cbn; lia|apply w_pd| |].
  { intros b Hb j Hj. cbn in Hj. assert (j = 0%nat) as -> by lia. specialize (Hb 0%nat ltac:(cbn; lia)). unfold mv, lF in Hb. cbn in Hb. lra. }
  fold w_all. rewrite T0. destruct (w_step [] (fun i => if Nat.eqb i 1 then 1 else 0) lv0 (fun i => if Nat.eqb i 1 then 1 else 0) T0) as (M0 & lv1 & T1); [cbn; lra|]. cbn [app] in *. rewrite T1.
  destruct (w_step [lv0] (fun i => if Nat.eqb i 1 then 1 else 0) lv1 (fun i => if Nat.eqb i 2 then 1 else 0) T1) as (M1 & lv2 & T2); [cbn; lra|]. cbn [app] in *. rewrite T2. eexists. reflexivity.
Qed.
Lemma w_yoff : y_off w_all <> 0.
Proof.
  unfold y_off, mean. assert (H : rsum (total w_all) (cat w_all d_y) = 3) by (cbn; ring). rewrite H. apply Rmult_integral_contrapositive_currified; [lra|]. apply Rinv_neq_0_compat. change (total w_all) with 9%nat. apply not_0_INR. lia.
Qed.
Lemma third_level : exists lvls, mfk_train 1 PConstant PConstant gs_qr rcond01 cond0 0 w_all = Some lvls /\ forall pls, 0 < nth 2 (mfk_variances 1 PConstant PConstant chol_inv pls w_all lvls (w_X 0)) 0.
Proof.
  destruct w_train as [lvls T]. exists lvls. split; [exact T|]. intros pls.
  destruct (get 1 PConstant PConstant gs_qr rcond01 cond0 0 w_all lvls gs_contract rcond01_contract T 2 _ eq_refl) as (lv & Hl & K).
  destruct (get 1 PConstant PConstant gs_qr rcond01 cond0 0 w_all lvls gs_contract rcond01_contract T 1 _ eq_refl) as (lv1 & Hl1 & K1).
  pose proof (fun i Hi => interp_k 1 PConstant PConstant 0 w_all lvls 1 _ lv1 Hl1 K1 i Hi) as I1. cbn [d_X d_y d_noise d_nt w_d] in I1.
  assert (L2 : forall i, (i < 3)%nat -> lpred 1 PConstant PConstant w_all lvls 2 (w_X i) = if Nat.eqb i 1 then 1 else 0) by (intros i Hi; unfold lpred; rewrite (I1 i Hi); ring).
  set (d2 := w_d (fun i => if Nat.eqb i 2 then 1 else 0)) in *.
  assert (S2 : lv_sigma2 1 PConstant PConstant 0 w_all lvls 2 d2 (p_sigma2 (l_par lv))) by (eapply (sigma2_k 1 PConstant PConstant gs_qr rcond01 cond0 0 w_all lvls T 2 d2 lv eq_refl Hl K)).
  apply (var_train_pos 1 PConstant PConstant gs_qr rcond01 cond0 0 w_all lvls gs_contract rcond01_contract T chol_inv pls chol_inv_contract 2 d2 0 (p_sigma2 (l_par lv))).
  - intros d Hd. cbn in Hd. destruct Hd as [<- |[<- |[<- |[]]]]; (split; [apply w_kok|intros; cbn; lra]).
  - lia.
  - reflexivity.
  - cbn; lia.
  - cbn; ring.
  - exact S2.
  - intros Z. destruct S2 as (b & v & [(g & Hg & Hv) _] & Ev). rewrite Z in Ev. cbn [d_nt w_d d2] in *.
    assert (V0 : v = 0). { symmetry in Ev. apply Rmult_integral in Ev. destruct Ev as [Ev|Ev]; [|exfalso; revert Ev; apply pow_nonzero, ys_nz]. unfold Rdiv in Ev. apply Rmult_integral in Ev. destruct Ev as [Ev|Ev]; [exact Ev|]. exfalso. revert Ev. apply Rinv_neq_0_compat. unfold lv_p. cbn. lra. }
    assert (G0 : forall i, (i < 3)%nat -> g i = 0).
    { intros i Hi. destruct (nonzero_dec 3 g) as [W|W]; [|apply W; exact Hi]. exfalso. pose proof (w_pd (fun i => if Nat.eqb i 2 then 1 else 0) g W) as P. rewrite (dot_ext 3 g _ g (fun i => lv_y w_all d2 i - mv (lv_p 1 PConstant PConstant 2) (lv_F 1 PConstant PConstant w_all lvls 2 d2) b i)) in P; [lra|reflexivity|].
      intros j Hj. rewrite <- (Hg j Hj). apply mv_ext; [|reflexivity]. intros a Ha. apply (R_eq 1 0 w_all d2 j a Hj Ha). }
    assert (Yb : forall i, (i < 3)%nat -> lv_y w_all d2 i = mv 2 (lv_F 1 PConstant PConstant w_all lvls 2 d2) b i).
    { intros i Hi. pose proof (Hg i Hi) as H. rewrite mv_zero in H by exact G0. change (lv_p 1 PConstant PConstant 2) with 2%nat in H. lra. }
    pose proof (Yb 0%nat ltac:(lia)) as Y0. pose proof (Yb 2%nat ltac:(lia)) as Y2.
    assert (F02 : forall j, (j < 2)%nat -> lv_F 1 PConstant PConstant w_all lvls 2 d2 0 j = lv_F 1 PConstant PConstant w_all lvls 2 d2 2 j).
    { intros j Hj. unfold lv_F, lv_trend. cbn [Nat.eqb]. change (d_X d2) with w_X. rewrite !L2 by lia. cbn [Nat.eqb n_regr]. destruct j as [|[|j]]; [| |lia]; cbn [Nat.ltb Nat.leb Nat.sub]; rewrite !fvec_0; reflexivity. }
    rewrite (mv_ext 2 _ (fun _ => lv_F 1 PConstant PConstant w_all lvls 2 d2 2) b b 0) in Y0; [|intros j Hj; apply F02; exact Hj|reflexivity].
    change (mv 2 (fun _ => lv_F 1 PConstant PConstant w_all lvls 2 d2 2) b 0) with (mv 2 (lv_F 1 PConstant PConstant w_all lvls 2 d2) b 2) in Y0. rewrite <- Y2 in Y0. unfold lv_y in Y0. cbn [d_y d2 w_d Nat.eqb] in Y0.
    apply (Rmult_eq_compat_r (y_scale w_all)) in Y0. unfold Rdiv in Y0. rewrite !Rmult_assoc, Rinv_l, !Rmult_1_r in Y0 by apply ys_nz. lra.
  - change (d_X d2) with w_X. rewrite L2 by lia. cbn [Nat.eqb]. intros Z. symmetry in Z. revert Z. apply w_yoff.
Qed.
(** ** linear trend in two dimensions: y = x_0 on the corners of the square *)
Definition v_X (i : nat) : vec := fun c => if Nat.eqb c 0 then (if Nat.eqb i 1 || Nat.eqb i 3 then 1 else 0) else (if Nat.leb 2 i then 1 else 0).
Definition v_d : data := {| d_nt := 4; d_X := v_X; d_y := (fun i => v_X i 0%nat); d_k := w_k; d_noise := (fun _ => 0) |}.
Notation v_all := [v_d].
Lemma v_distinct : forall i j, (i < 4)%nat -> (j < 4)%nat -> i <> j -> ~ (forall k, (k < 2)%nat -> v_X i k = v_X j k).
Proof.
  intros i j Hi Hj N H. pose proof (H 0%nat ltac:(lia)) as H0. pose proof (H 1%nat ltac:(lia)) as H1. unfold v_X in H0, H1. cbn [Nat.eqb] in H0, H1.
  destruct i as [|[|[|[|i]]]]; try lia; destruct j as [|[|[|[|j]]]]; try lia; cbn in H0, H1; lra.
Qed.
Lemma v_F i j : (j < 3)%nat -> lv_trend 2 PLinear PConstant v_all 0 (fun _ => 0) (v_X i) j = if Nat.eqb j 0 then 1 else stdx v_all (v_X i) (j - 1)%nat.
Proof. intros Hj. unfold lv_trend. cbn [Nat.eqb]. apply fvec_linear. lia. Qed.
Lemma v_inj (b : vec) (c : R) : (forall i, (i < 4)%nat -> b 0%nat + stdx v_all (v_X i) 0 * b 1%nat + stdx v_all (v_X i) 1 * b 2%nat = c) -> b 1%nat = 0 /\ b 2%nat = 0.
Proof.
  intros H. pose proof (H 0%nat ltac:(lia)) as H0. pose proof (H 1%nat ltac:(lia)) as H1. pose proof (H 2%nat ltac:(lia)) as H2. unfold stdx in H0, H1, H2. cbn [v_X Nat.eqb orb Nat.leb] in H0, H1, H2.
  set (o0 := x_off v_all 0) in *. set (o1 := x_off v_all 1) in *. set (s0 := x_scale v_all 0) in *. set (s1 := x_scale v_all 1) in *.
  assert (Z0 : / s0 <> 0) by (apply Rinv_neq_0_compat, scale1_nz). assert (Z1 : / s1 <> 0) by (apply Rinv_neq_0_compat, scale1_nz). unfold Rdiv in *.
  split.
  - assert (Q : / s0 * b 1%nat = 0) by lra. apply Rmult_integral in Q. tauto.
  - assert (Q : / s1 * b 2%nat = 0) by lra. apply Rmult_integral in Q. tauto.
Qed.
Lemma v_train : exists lvls, mfk_train 2 PLinear PConstant gs_qr rcond01 cond0 0 v_all = Some lvls.
Proof.
  unfold mfk_train. cbn [train_levels]. destruct (level_gs 2 PLinear PConstant 0 v_all [] v_d) as [lv0 T0]; [cbn; lia| | |].
  - apply corr_matrix_pd_distinct; [discriminate|intros; lra| |intros; cbn; lra]. apply (std_distinct 2 v_all v_X 4). exact v_distinct.
  - intros b Hb. cbn [lq np n_regr Nat.add d_nt v_d] in *. unfold np in *. cbn [n_regr Nat.add] in *.
    assert (H : forall i, (i < 4)%nat -> b 0%nat + stdx v_all (v_X i) 0 * b 1%nat + stdx v_all (v_X i) 1 * b 2%nat = 0).
    { intros i Hi. rewrite <- (Hb i Hi). unfold mv, lF. cbn [rsum last_mean means rev basis]. change (d_X v_d) with v_X. rewrite !fvec_linear by lia. cbn [Nat.eqb Nat.sub]. ring. }
    destruct (v_inj b 0 H) as [B1 B2]. pose proof (H 0%nat ltac:(lia)) as H0. rewrite B1, B2 in H0. intros j Hj. destruct j as [|[|[|j]]]; [lra|exact B1|exact B2|lia].
  - rewrite T0. eexists. reflexivity.
Qed.
Lemma v_kok : k_ok (d_k v_d) 2 /\ k_corr (d_k v_d) = SquarExp.
Proof. split; [|reflexivity]. split; [discriminate|]. intros. lra. Qed.
Lemma v_refuted : exists lvls v, mfk_train 2 PLinear PConstant gs_qr rcond01 cond0 0 v_all = Some lvls /\
  mfk_derivative 2 PLinear PConstant SquarExp v_all lvls (fun _ => 0) 1 = Some v /\ ~ is_partial (value 2 PLinear v_all lvls) (fun _ => 0) 1 v.
Proof.
  destruct v_train as [lvls T]. destruct (proj2 (mfk_deriv_some 2 PLinear gs_qr rcond01 cond0 0 v_all lvls T SquarExp PConstant (fun _ => 0) 1 ltac:(discriminate)) ltac:(repeat split; discriminate)) as [v Hv].
  exists lvls, v. split; [exact T|]. split; [exact Hv|]. intros P.
  destruct (linear_error 2 gs_qr rcond01 cond0 0 v_d lvls gs_contract rcond01_contract T v_kok (fun _ => 0) 1 v ltac:(lia) Hv) as (b & r & [(g & Hg & Hr) M] & P2).
  unfold is_partial in P, P2. apply is_derive_unique in P. apply is_derive_unique in P2. rewrite P in P2. cbn [rsum Nat.eqb] in P2.
  assert (B1 : b 1%nat = 0).
  { set (q := b 1%nat * y_scale v_all / x_scale v_all 1). assert (Q : q = 0) by (unfold q; cbn [Nat.add] in P2; unfold Rdiv in *; lra). unfold q, Rdiv in Q. apply Rmult_integral in Q. destruct Q as [Q|Q]; [|exfalso; revert Q; apply Rinv_neq_0_compat, scale1_nz]. apply Rmult_integral in Q. destruct Q as [Q|Q]; [exact Q|exfalso; revert Q; apply ys_nz]. }
  cbn [d_nt v_d] in *.
  set (bs := fun j : nat => if Nat.eqb j 0 then (x_off v_all 0 - y_off v_all) / y_scale v_all else if Nat.eqb j 1 then x_scale v_all 0 / y_scale v_all else 0).
  assert (Fe : forall b i, mv (1 + 2) (lv_F 2 PLinear PConstant v_all lvls 0 v_d) b i = b 0%nat + stdx v_all (v_X i) 0 * b 1%nat + stdx v_all (v_X i) 1 * b 2%nat).
  { intros b' i. unfold mv, lv_F, lv_trend. cbn [Nat.add rsum Nat.eqb]. change (d_X v_d) with v_X. rewrite !fvec_linear by lia. cbn [Nat.eqb Nat.sub]. ring. }
  assert (Ex : forall i, (i < 4)%nat -> lv_y v_all v_d i = mv (1 + 2) (lv_F 2 PLinear PConstant v_all lvls 0 v_d) bs i).
  { intros i Hi. rewrite Fe. unfold bs, lv_y, stdx. cbn [Nat.eqb d_y v_d]. assert (Z1 : x_scale v_all 0 <> 0) by apply scale1_nz. assert (Z2 : y_scale v_all <> 0) by apply ys_nz. assert (Z3 : x_scale v_all 1 <> 0) by apply scale1_nz. field. repeat split; assumption. }
  assert (R0 : r <= 0). { apply (M bs 0). exists (fun _ => 0). split; [intros i Hi; rewrite mv_zero by reflexivity; rewrite Ex by exact Hi; ring|]. unfold dot. symmetry. apply rsum_zero. intros. ring. }
  assert (G0 : forall i, (i < 4)%nat -> g i = 0).
  { intros i Hi. destruct (nonzero_dec 4 g) as [W|W]; [|apply W; exact Hi]. exfalso.
    assert (PD : mpd 4 (corr_matrix (d_k v_d) 2 4 (fun i => stdx v_all (d_X v_d i)) 0 (d_noise v_d))) by (apply corr_matrix_pd_distinct; [discriminate|intros; lra| |intros; cbn; lra]; apply (std_distinct 2 v_all v_X 4); exact v_distinct).
    pose proof (PD g W) as PP. rewrite (dot_ext 4 g _ g (fun i => lv_y v_all v_d i - mv (1 + 2) (lv_F 2 PLinear PConstant v_all lvls 0 v_d) b i)) in PP; [lra|reflexivity|].
    intros j Hj. rewrite <- (Hg j Hj). apply mv_ext; [|reflexivity]. intros a Ha. apply (R_eq 2 0 v_all v_d j a Hj Ha). }
  assert (D : forall i, (i < 4)%nat -> b 0%nat - bs 0%nat + stdx v_all (v_X i) 0 * (b 1%nat - bs 1%nat) + stdx v_all (v_X i) 1 * (b 2%nat - bs 2%nat) = 0).
  { intros i Hi. pose proof (Hg i Hi) as H. rewrite mv_zero in H by exact G0. rewrite (Ex i Hi), !Fe in H. lra. }
  destruct (v_inj (fun j => b j - bs j) 0 D) as [D1 _]. rewrite B1 in D1. unfold bs in D1. cbn [Nat.eqb] in D1. assert (Q : x_scale v_all 0 / y_scale v_all = 0) by lra. unfold Rdiv in Q. apply Rmult_integral in Q. destruct Q as [Q|Q]; [revert Q; apply scale1_nz|revert Q; apply Rinv_neq_0_compat, ys_nz].
Qed.
