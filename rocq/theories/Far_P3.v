(** Kriging with a constant trend, IDW and RBF far from the data. *)
From Coq Require Import Reals Arith Bool List Lia Lra.
From Verif Require Import RSum Mat Tri_M Tri_P Kernels_M Krg_M Krg_S Krg_P Krg_P2 Krg_P3 Krg_P8 Far_S Far_P Far_P2 Idw_M Idw_P Rbf_M.
Import ListNotations.
Open Scope R_scope.
Lemma krg_far qr rcond condF : qr_contract qr -> rcond_contract rcond ->
  forall nx nt po s nugget noise X y m, krg_train qr rcond condF nx nt po s nugget noise X y = Some m -> sees_all s nx ->
  exists b, gls_fit nt (n_regr po nx) (d_corr nx nt s nugget noise X) (d_trend nx nt po X) y b /\
            limit_far nx (predict_value m) (fun x => rsum (n_regr po nx) (fun j => b j * q_trend nx nt po X x j)).
Proof.
  intros HQ HR nx nt po s nugget noise X y m E SA. pose proof (train_inv _ _ _ _ _ _ _ _ _ _ _ _ HQ HR E) as T. exists (braw nt y m). split; [apply (raw_fit nx nt po s nugget noise X y m T)|].
  apply (lim_ext nx (predict_value m) (fun x => dot (n_regr po nx) (q_trend nx nt po X x) (braw nt y m))); [reflexivity| |apply (value_far nx nt po s nugget noise X y m T SA)].
  intros x. unfold dot. apply rsum_ext. intros; ring.
Qed.
Lemma krg_far_constant qr rcond condF : qr_contract qr -> rcond_contract rcond ->
  forall nx nt s nugget noise X y m, krg_train qr rcond condF nx nt PConstant s nugget noise X y = Some m -> sees_all s nx -> (forall i, (i < nt)%nat -> 0 <= nugget + noise i) ->
  (exists v : vec, forall i, (i < nt)%nat -> mv nt (d_corr nx nt s nugget noise X) v i = 1) /\
  forall v : vec, (forall i, (i < nt)%nat -> mv nt (d_corr nx nt s nugget noise X) v i = 1) ->
    0 < rsum nt v /\ limit_far nx (predict_value m) (fun _ => rsum nt (fun i => v i * y i) / rsum nt v) /\
    limit_far nx (predict_variance m) (fun _ => p_sigma2 (m_par m) * (1 + 1 / rsum nt v)).
Proof.
  intros HQ HR nx nt s nugget noise X y m E SA Nn. pose proof (train_inv _ _ _ _ _ _ _ _ _ _ _ _ HQ HR E) as T.
  assert (EQ : forall v i, (i < nt)%nat -> mv nt (corr_matrix s nx nt (Xnorm nt X) nugget noise) v i = mv nt (d_corr nx nt s nugget noise X) v i) by (intros v i Hi; apply mv_ext; [intros; apply d_corr_eq; assumption|reflexivity]).
  pose proof (corr_matrix_sym s nx nt (Xnorm nt X) nugget noise) as S. split.
  - pose proof (fo_C _ _ _ _ _ _ (t_fit _ _ _ _ _ _ _ _ _ T)) as FC. eexists. intros i Hi. rewrite <- EQ by exact Hi. exact (chol_solve nt _ _ (fun _ => 1) S FC i Hi).
  - intros v V. destruct (variance_far nx nt PConstant s nugget noise X y m T SA Nn v eq_refl) as [P L]; [intros i Hi; rewrite EQ by exact Hi; apply V; exact Hi|]. split; [exact P|]. split; [|exact L].
    assert (Lb : braw nt y m 0%nat = rsum nt (fun i => v i * y i) / rsum nt v).
    { destruct (raw_fit nx nt PConstant s nugget noise X y m T) as (g & Hg & Og). specialize (Og 0%nat ltac:(cbn; lia)).
      rewrite (rsum_ext nt _ g) in Og by (intros i _; unfold d_trend; rewrite fvec_0; ring).
      assert (A : dot nt v (fun i => y i - braw nt y m 0%nat) = 0).
      { rewrite (dot_ext nt v _ v (mv nt (corr_matrix s nx nt (Xnorm nt X) nugget noise) g)).
        - rewrite (dot_mv_sym nt _ v g S). rewrite <- Og. unfold dot. apply rsum_ext. intros i Hi. rewrite EQ, V by exact Hi. ring.
        - reflexivity.
        - intros i Hi. rewrite EQ, Hg by exact Hi. unfold mv. cbn [n_regr rsum]. unfold d_trend. rewrite fvec_0. ring. }
      unfold dot in A. rewrite (rsum_ext nt _ (fun i => v i * y i - v i * braw nt y m 0%nat)) in A by (intros; ring). rewrite rsum_minus, rsum_scal_r in A. apply Rmult_eq_reg_r with (rsum nt v); [|lra]. unfold Rdiv. rewrite Rmult_assoc, Rinv_l by lra. lra. }
    apply (lim_ext nx (predict_value m) (fun x => dot (n_regr PConstant nx) (q_trend nx nt PConstant X x) (braw nt y m))); [reflexivity| |apply (value_far nx nt PConstant s nugget noise X y m T SA)].
    intros x. unfold dot. cbn [n_regr rsum]. unfold q_trend. rewrite fvec_0, Lb. ring.
Qed.
Lemma krg_far_trend qr rcond condF : qr_contract qr -> rcond_contract rcond ->
  forall nx nt po s nugget noise X y m, krg_train qr rcond condF nx nt po s nugget noise X y = Some m -> sees_all s nx -> (forall i, (i < nt)%nat -> 0 <= nugget + noise i) ->
  po <> PConstant -> 0 < p_sigma2 (m_par m) -> forall B, exists D, forall x, away nx D x -> B < predict_variance m x.
Proof. intros HQ HR nx nt po s nugget noise X y m E SA Nn HP P2 B. apply (variance_far_infinite nx nt po s nugget noise X y m (train_inv _ _ _ _ _ _ _ _ _ _ _ _ HQ HR E) SA Nn HP P2 B). Qed.
Lemma krg_blind qr rcond condF : qr_contract qr -> rcond_contract rcond ->
  forall nx nt c theta nugget noise X y m k, krg_train qr rcond condF nx nt PConstant (KStd c theta) nugget noise X y = Some m -> c <> ActExp -> theta k = 0 ->
  forall x t, predict_value m (upd x k t) = predict_value m x.
Proof.
  intros HQ HR nx nt c theta nugget noise X y m k E Hc Ht x t. pose proof (train_inv _ _ _ _ _ _ _ _ _ _ _ _ HQ HR E) as T. rewrite !(value_eq _ _ _ _ _ _ _ _ _ T). change (fvec PConstant nx (xq nt X (upd x k t))) with (fvec PConstant nx (xq nt X x)). do 3 f_equal. apply dot_ext; [|reflexivity]. intros i _.
  unfold rq, kf, kd. rewrite !Kernels_P.kernel_prod by exact Hc. apply rprod_ext. intros j Hj. f_equal. destruct (Nat.eq_dec j k) as [-> | N].
  - rewrite Ht, !Rmult_0_l. reflexivity.
  - unfold comp_dist, xq. rewrite (upd_neq x k t j N). reflexivity.
Qed.
(** ** IDW *)
Lemma r2_big nx (z : vec) (B : R) : exists D, forall x, away nx D x -> B < rsum nx (fun k => (x k - z k) ^ 2).
Proof.
  destruct (max_bound nx (fun c => Rabs (z c))) as [M HM]. exists (M + (Rabs B + 1)). intros x (c & Hc & L).
  eapply Rlt_le_trans; [|apply (rsum_ge_term nx (fun k => (x k - z k) ^ 2) c); [intros; apply pow2_ge_0|exact Hc]]. cbn beta.
  pose proof (Rabs_triang_inv (x c) (z c)) as Tr. specialize (HM c Hc). assert (Q : Rabs B + 1 <= Rabs (x c - z c)) by lra. replace ((x c - z c) ^ 2) with (Rabs (x c - z c) ^ 2) by apply pow2_abs. pose proof (Rabs_pos B). pose proof (Rle_abs B). nra.
Qed.
Section I.
Variables (nx nt : nat) (p : R) (xt : nat -> nat -> R).
Hypothesis Hnt : (0 < nt)%nat.
Let r2 := idw_r2 nx xt.
Lemma ratio_far i : limit_far nx (fun x => r2 x i / r2 x 0%nat) (fun _ => 1).
Proof.
  intros eps He. set (dl := fun k => xt 0%nat k - xt i k). set (d2 := rsum nx (fun k => dl k ^ 2)). set (t := eps / 2).
  assert (Ht : 0 < t) by (unfold t; lra). assert (Hd : 0 <= d2) by (apply rsum_nonneg; intros; apply pow2_ge_0). assert (It : 0 < / t) by (apply Rinv_0_lt_compat; exact Ht).
  destruct (r2_big nx (xt 0%nat) (1 + (1 + / t) * d2 / t)) as [D HD]. exists D. intros x Hx. specialize (HD x Hx). change (rsum nx (fun k => (x k - xt 0%nat k) ^ 2)) with (r2 x 0%nat) in HD.
  set (a := r2 x 0%nat) in *. assert (Q0 : 0 <= (1 + / t) * d2 / t) by (apply Rmult_le_pos; [apply Rmult_le_pos; lra|lra]). assert (Pa : 0 < a) by lra.
  set (q := rsum nx (fun k => (x k - xt 0%nat k) * dl k)).
  assert (E : r2 x i = a + 2 * q + d2).
  { unfold a, q, d2, r2, idw_r2. rewrite <- rsum_scal_l, <- !rsum_plus. apply rsum_ext. intros k _. unfold dl. ring. }
  assert (Up : 2 * q <= t * a + d2 / t).
  { unfold a, q, d2, r2, idw_r2, Rdiv. rewrite <- rsum_scal_r, <- !rsum_scal_l, <- rsum_plus. apply rsum_le. intros k _. set (w := x k - xt 0%nat k). assert (0 <= (t * w - dl k) ^ 2 * / t) by (apply Rmult_le_pos; [apply pow2_ge_0|lra]).
    replace ((t * w - dl k) ^ 2 * / t) with (t * w ^ 2 - 2 * (w * dl k) + dl k ^ 2 * / t) in H by (field; lra). lra. }
  assert (Lo : - (2 * q) <= t * a + d2 / t).
  { unfold a, q, d2, r2, idw_r2, Rdiv. rewrite <- rsum_scal_r, <- !rsum_scal_l, <- rsum_opp, <- rsum_plus. apply rsum_le. intros k _. set (w := x k - xt 0%nat k). assert (0 <= (t * w + dl k) ^ 2 * / t) by (apply Rmult_le_pos; [apply pow2_ge_0|lra]).
    replace ((t * w + dl k) ^ 2 * / t) with (t * w ^ 2 + 2 * (w * dl k) + dl k ^ 2 * / t) in H by (field; lra). lra. }
  assert (S1 : (1 + / t) * d2 < t * a). { apply Rmult_lt_reg_r with (/ t); [exact It|]. replace (t * a * / t) with a by (field; lra). unfold Rdiv in HD. lra. }
  assert (D1 : d2 / t = / t * d2) by (unfold Rdiv; ring).
  replace (r2 x i / a - 1) with ((2 * q + d2) / a) by (rewrite E; field; lra). unfold Rdiv. rewrite Rabs_mult, (Rabs_pos_eq (/ a)) by (apply Rlt_le, Rinv_0_lt_compat; exact Pa).
  apply Rmult_lt_reg_r with a; [exact Pa|]. rewrite Rmult_assoc, Rinv_l, Rmult_1_r by lra. replace (eps * a) with (2 * (t * a)) by (unfold t; field). apply Rabs_def1; lra.
Qed.
Lemma power_far i : limit_far nx (fun x => Rpower (r2 x i / r2 x 0%nat) (- p / 2)) (fun _ => 1).
Proof.
  intros eps He. assert (C : continuity_pt (fun u => Rpower u (- p / 2)) 1) by (apply derivable_continuous_pt; eexists; apply (derivable_pt_lim_power 1 (- p / 2)); lra).
  destruct (C eps He) as (al & Ha & HC). destruct (ratio_far i al Ha) as [D HD]. exists D. intros x Hx. specialize (HD x Hx). cbn beta in HD.
  replace 1 with (Rpower 1 (- p / 2)) at 1 by (unfold Rpower; rewrite ln_1, Rmult_0_r; apply exp_0).
  destruct (Req_dec (r2 x i / r2 x 0%nat) 1) as [-> | N]; [rewrite Rminus_diag_eq by reflexivity; rewrite Rabs_R0; exact He|].
  apply (HC (r2 x i / r2 x 0%nat)). split; [split; [exact I|intro; apply N; symmetry; assumption]|exact HD].
Qed.
Lemma idw_far yt : limit_far nx (idw_value nx nt p xt yt) (fun _ => rsum nt yt / INR nt).
Proof.
  set (mu := rsum nt yt / INR nt). assert (Pn : 0 < INR nt) by (apply lt_0_INR; exact Hnt).
  (* far away no training point coincides with the query *)
  assert (Off : exists D, forall x, away nx D x -> forall i, (i < nt)%nat -> 0 < r2 x i).
  { assert (A : forall n, (n <= nt)%nat -> exists D, forall x, away nx D x -> forall i, (i < n)%nat -> 0 < r2 x i).
    { induction n as [|n IH]; intros Hn; [exists 0; intros; lia|]. destruct (IH ltac:(lia)) as [D1 H1]. destruct (r2_big nx (xt n) 0) as [D2 H2]. exists (Rmax D1 D2). intros x Hx i Hi.
      destruct (Nat.eq_dec i n) as [-> | N]; [apply H2; apply (away_mono _ _ _ _ (Rmax_r D1 D2) Hx)|apply (H1 x (away_mono _ _ _ _ (Rmax_l D1 D2) Hx)); lia]. }
    apply (A nt (Nat.le_refl _)). }
  destruct Off as [D0 H0]. set (qf := fun i x => Rpower (r2 x i / r2 x 0%nat) (- p / 2)).
  apply lim_small. apply (small_le nx (fun x => rsum nt (fun i => Rabs (qf i x - 1) * Rabs (yt i - mu))) _ D0).
  - intros x Hx. specialize (H0 x Hx). set (w := idw_w nx p xt x).
    assert (Wq : forall i, (i < nt)%nat -> w i = w 0%nat * qf i x).
    { intros i Hi. unfold w, idw_w, qf. fold (r2 x i). change (idw_r2 nx xt x 0%nat) with (r2 x 0%nat).
      pose proof (H0 i Hi). pose proof (H0 0%nat Hnt). rewrite Rpower_mult_distr by (try assumption; apply Rdiv_lt_0_compat; assumption). f_equal. change (idw_r2 nx xt x i) with (r2 x i). field. lra. }
    assert (Nm : fst (idw_min nx nt xt x) <> 0). { apply min_off. intros i Hi On. apply (proj2 (r2_zero nx xt x i)) in On. pose proof (H0 i Hi) as P. unfold r2 in P. lra. }
    assert (W0 : 0 < w 0%nat) by apply w_pos. assert (Qp : forall i, 0 < qf i x) by (intros; apply exp_pos).
    assert (Q0 : qf 0%nat x = 1). { unfold qf. replace (r2 x 0%nat / r2 x 0%nat) with 1 by (pose proof (H0 0%nat Hnt); field; lra). unfold Rpower. rewrite ln_1, Rmult_0_r. apply exp_0. }
    set (sq := rsum nt (fun i => qf i x)). assert (Sq : 1 <= sq) by (rewrite <- Q0; apply (rsum_ge_term nt (fun i => qf i x) 0%nat); [intros; apply Rlt_le, Qp|exact Hnt]).
    assert (V : idw_value nx nt p xt yt x - mu = rsum nt (fun i => (qf i x - 1) * (yt i - mu)) / sq).
    { unfold idw_value. rewrite (rsum_ext nt _ (fun i => qf i x * yt i * / sq)).
      - rewrite rsum_scal_r. rewrite (rsum_ext nt (fun i => (qf i x - 1) * (yt i - mu)) (fun i => qf i x * yt i - qf i x * mu - yt i + mu)) by (intros; ring).
        rewrite rsum_plus, !rsum_minus, rsum_scal_r, rsum_const. fold sq. unfold mu. field. lra.
      - intros i Hi. unfold idw_jac. destruct (Req_EM_T _ 0) as [Z|_]; [contradiction|]. change (idw_w nx p xt x i) with (w i). change (idw_w nx p xt x) with w. rewrite Wq by exact Hi.
        rewrite (rsum_ext nt w (fun i => w 0%nat * qf i x)) by exact Wq. rewrite rsum_scal_l. fold sq. field. lra. }
    rewrite V. unfold Rdiv. rewrite Rabs_mult, (Rabs_pos_eq (/ sq)) by (apply Rlt_le, Rinv_0_lt_compat; lra).
    apply Rle_trans with (Rabs (rsum nt (fun i => (qf i x - 1) * (yt i - mu))) * 1).
    + apply Rmult_le_compat_l; [apply Rabs_pos|]. rewrite <- Rinv_1. apply Rinv_le_contravar; lra.
    + rewrite Rmult_1_r. eapply Rle_trans; [apply rsum_abs|]. right. apply rsum_ext. intros. apply Rabs_mult.
  - apply (small_rsum nx nt (fun i x => Rabs (qf i x - 1) * Rabs (yt i - mu))). intros i _. apply (small_ext nx (fun x => Rabs (yt i - mu) * Rabs (qf i x - 1))); [intros; ring|]. apply small_scal.
    intros eps He. destruct (power_far i eps He) as [D HD]. exists D. intros x Hx. rewrite Rminus_0_r, Rabs_Rabsolu. apply (HD x Hx).
Qed.
End I.
(** ** RBF *)
Definition rbf_tail (nx nt : nat) (deg : degree) (sol x : vec) : R :=
  match deg with NoPoly => 0 | Constant => sol nt | Linear => sol nt + rsum nx (fun k => sol (nt + 1 + k)%nat * x k) end.
Lemma rbf_split nx nt deg d0 xt sol x : rbf_value nx nt deg d0 xt sol x = rsum nt (fun i => sol i * rbf_radial nx d0 xt x i) + rbf_tail nx nt deg sol x.
Proof.
  unfold rbf_value, dot, num_dof. rewrite rsum_app. f_equal.
  - apply rsum_ext. intros i Hi. unfold rbf_jac. replace (Nat.ltb i nt) with true by (symmetry; apply Nat.ltb_lt; exact Hi). ring.
  - assert (J : forall i, rbf_jac nx nt deg d0 xt x (nt + i) = match deg with NoPoly => 0 | Constant => 1 | Linear => if Nat.eqb (nt + i) nt then 1 else x (nt + i - (nt + 1))%nat end).
    { intros i. unfold rbf_jac. replace (Nat.ltb (nt + i) nt) with false by (symmetry; apply Nat.ltb_ge; lia). reflexivity. }
    destruct deg; cbn [num_poly rbf_tail].
    + reflexivity.
    + cbn [rsum]. rewrite J, Nat.add_0_r. ring.
    + change (1 + nx)%nat with (Datatypes.S nx). rewrite rsum_S_l, J, Nat.add_0_r, Nat.eqb_refl, Rmult_1_l. f_equal. apply rsum_ext. intros k _. rewrite J. replace (Nat.eqb (nt + Datatypes.S k) nt) with false by (symmetry; apply Nat.eqb_neq; lia).
      replace (nt + Datatypes.S k - (nt + 1))%nat with k by lia. replace (nt + 1 + k)%nat with (nt + Datatypes.S k)%nat by lia. ring.
Qed.
Lemma radial_small nx d0 xt i : (forall k, (k < nx)%nat -> d0 k <> 0) -> small nx (fun x => rbf_radial nx d0 xt x i).
Proof.
  intros Hd. apply small_coord. intros k Hk eps He. specialize (Hd k Hk). pose proof (Rabs_pos_lt _ Hd) as Pd. exists (Rabs (xt i k) + Rabs (d0 k) * (1 + / eps)). intros x Hx.
  assert (Ie : 0 < / eps) by (apply Rinv_0_lt_compat; exact He). unfold rbf_radial. rewrite Rabs_pos_eq by (apply Rlt_le, exp_pos). set (r := rsum nx _).
  assert (L : / eps < r).
  { eapply Rlt_le_trans; [|apply (rsum_ge_term nx _ k); [intros; apply pow2_ge_0|exact Hk]]. cbn beta. pose proof (Rabs_triang_inv (x k) (xt i k)) as Tr.
    assert (Q : 1 + / eps <= Rabs ((x k - xt i k) / d0 k)). { unfold Rdiv. rewrite Rabs_mult, Rabs_inv. apply Rmult_le_reg_r with (Rabs (d0 k)); [exact Pd|]. rewrite Rmult_assoc, Rinv_l, Rmult_1_r by lra. lra. }
    replace (((x k - xt i k) / d0 k) ^ 2) with (Rabs ((x k - xt i k) / d0 k) ^ 2) by apply pow2_abs. nra. }
  rewrite exp_Ropp. pose proof (exp_ineq1_le r). apply Rmult_lt_reg_r with (exp r * / eps); [apply Rmult_lt_0_compat; [apply exp_pos|exact Ie]|].
  pose proof (exp_pos r). replace (/ exp r * (exp r * / eps)) with (/ eps) by (field; lra). replace (eps * (exp r * / eps)) with (exp r) by (field; lra). lra.
Qed.
Lemma rbf_far nx nt deg d0 xt sol : (forall k, (k < nx)%nat -> d0 k <> 0) -> limit_far nx (rbf_value nx nt deg d0 xt sol) (rbf_tail nx nt deg sol).
Proof.
  intros Hd. apply lim_small. apply (small_ext nx (fun x => rsum nt (fun i => sol i * rbf_radial nx d0 xt x i))); [intros x; rewrite rbf_split; ring|].
  apply (small_rsum nx nt (fun i x => sol i * rbf_radial nx d0 xt x i)). intros i _. apply small_scal, radial_small. exact Hd.
Qed.
