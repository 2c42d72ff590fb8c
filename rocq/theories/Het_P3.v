(** C101: the trained model. *)
From Coq Require Import Reals Arith Bool List Lia Lra FunctionalExtensionality.
From Coquelicot Require Import Coquelicot.
From Verif Require Import RSum Mat Psd Psd2 Tri_M Tri_P Kernels_M Kernels_P Kernels_P2 Kernels_P3 Krg_M Krg_S Krg_P Krg_P2 Krg_P3 Krg_P4 Krg_P5 Krg_P8 Het_M Het_S Het_P1 Het_P2.
Import ListNotations.
Open Scope list_scope.
Open Scope R_scope.

Lemma Xnorm_same nx n X i j : same nx (Xnorm n X i) (Xnorm n X j) <-> same nx (X i) (X j).
Proof.
  split; intros H c Hc; specialize (H c Hc); unfold Xnorm in *.
  - set (sc := scale1 n (fun a => X a c)) in *. assert (N : sc <> 0) by apply scale1_nz. apply (Rmult_eq_compat_r sc) in H. unfold Rdiv in H. rewrite !Rmult_assoc, Rinv_l, !Rmult_1_r in H by exact N. lra.
  - rewrite H. reflexivity.
Qed.
Lemma chol_factor_ext n A B L : (forall i j, (i < n)%nat -> (j <= i)%nat -> A i j = B i j) -> chol_factor n A L -> chol_factor n B L.
Proof. intros E [H1 H2 H3]. split; [exact H1|exact H2|]. intros i j Hi Hj. rewrite <- E by assumption. apply H3; assumption. Qed.
(** ** one output: the block statistics are those of the group *)
Section One.
Variables (n : nat) (idx : nat -> nat) (y : vec) (u : nat).
Let yn : nat -> vec := fun a j => ynorm n (fun i => y i) a.
Lemma block1 (v : nat -> vec) : block_sum n 1 idx u v = masked_sum n idx u (fun a => v a 0%nat).
Proof. unfold block_sum. apply rsum_ext. intros a _. cbn [rsum]. destruct (Nat.eqb (idx a) u); [lra|reflexivity]. Qed.
Lemma size1 : block_size n 1 idx u = count n idx u. Proof. unfold block_size. cbn [INR]. lra. Qed.
End One.
(** the variance before division by the number of replicates *)
Definition opt_noise (n : nat) (idx : nat -> nat) (v n0 : vec) (u : nat) : R :=
  let mu := masked_sum n idx u v / count n idx u in
  let ss := masked_sum n idx u (fun a => (v a - mu) ^ 2) in
  if Req_EM_T ss 0 then n0 u else ss / (count n idx u - 1).
Section H.
Variables (qr : nat -> nat -> mat -> mat * mat) (rcond : nat -> mat -> R) (condF : nat -> nat -> mat -> R).
Hypotheses (HQ : qr_contract qr) (HR : rcond_contract rcond).
Variables (nx n : nat) (po : poly) (s : kspec) (nugget : R) (noise0 : list R) (X : nat -> vec) (y : vec).
Let yy : nat -> vec := fun i _ => y i.
Let Xn := Xnorm n X.
Let v := ynorm n y.
Let l := uniq nx Xn n.
Let nt := length l.
Let idx := inverse nx Xn n.
Let p := n_regr po nx.
Let Xu : nat -> vec := fun u => Xn (nth u l 0%nat).
Let yu := fun u => masked_sum n idx u v / count n idx u.
Lemma Hidx i : (i < n)%nat -> (idx i < nt)%nat. Proof. apply inverse_lt. Qed.
Lemma Hrp u : (u < nt)%nat -> (rep nx Xn n u < n)%nat /\ idx (rep nx Xn n u) = u.
Proof. intros H. split; [apply rep_lt; exact H|apply inverse_rep; exact H]. Qed.
Lemma cp u : (u < nt)%nat -> 0 < count n idx u. Proof. apply (cnt_pos n nt idx (rep nx Xn n) Hrp). Qed.
Lemma cp1 u : (u < nt)%nat -> 1 <= count n idx u. Proof. apply (cnt_ge1 n nt idx (rep nx Xn n) Hrp). Qed.
Lemma y_rep u : y_mean_rep n 1 idx (fun a j => ynorm n (fun i => yy i j) a) u = yu u.
Proof. unfold y_mean_rep. rewrite block1, size1. reflexivity. Qed.
Lemma noise_rep1 n0 u : (u < nt)%nat -> noise_rep n 1 idx (fun a j => ynorm n (fun i => yy i j) a) n0 u = opt_noise n idx v n0 u / count n idx u.
Proof.
  intros Hu. pose proof (cp u Hu) as C. pose proof (cp1 u Hu) as C1. unfold noise_rep. cbv zeta. rewrite !block1, !size1, !y_rep. f_equal. unfold opt_noise. fold (yu u).
  change (masked_sum n idx u (fun a => (ynorm n (fun i => yy i 0%nat) a - yu u) ^ 2)) with (masked_sum n idx u (fun a => (v a - yu u) ^ 2)). destruct (Req_EM_T _ 0) as [Z|Z]; [reflexivity|].
  assert (D : masked_sum n idx u (fun a => ynorm n (fun i => yy i 0%nat) a - yu u) = 0).
  { rewrite gs_minus, gs_const. unfold yu. change (ynorm n (fun i => yy i 0%nat)) with v. field. lra. }
  rewrite D. rewrite (gs_ext n idx u _ (fun a => (v a - yu u) ^ 2)) by (intros; unfold Rdiv; rewrite Rmult_0_l, Rminus_0_r; reflexivity).
  rewrite <- Rsqr_pow2, Rsqr_sqrt; [reflexivity|]. apply Rmult_le_pos; [apply gs_nonneg; intros; apply pow2_ge_0|].
  destruct (Req_dec (count n idx u - 1) 0) as [E|E]; [rewrite E, Rinv_0; lra|]. apply Rlt_le, Rinv_0_lt_compat. lra.
Qed.
(** what a trained model is *)
Record het_ok (n0 : vec) (m : model) : Prop := {
  h_b : bcast nt noise0 = Some n0;
  h_nt : (2 <= nt)%nat;
  h_p : (p <= nt)%nat;
  h_m : m = {| m_nx := nx; m_nt := nt; m_poly := po; m_k := s; m_Xn := Xu;
               m_off := (fun c => mean n (fun a => X a c)); m_scale := (fun c => scale1 n (fun a => X a c));
               m_ymean := mean n y; m_ystd := scale1 n y; m_par := m_par m |};
  h_fit : fit_ok nt p (corr_matrix s nx nt Xu 0 (fun u => opt_noise n idx v n0 u / count n idx u)) (fun i j => fvec po nx (Xu i) j) yu (m_par m);
  h_s2 : p_sigma2 (m_par m) = dot nt (rho_of nt p yu (m_par m)) (rho_of nt p yu (m_par m)) / INR nt * (scale1 n y) ^ 2 }.
Lemma corr_ext a b i j : (forall u, (u < nt)%nat -> a u = b u) -> (i < nt)%nat -> (j < nt)%nat -> corr_matrix s nx nt Xu 0 a i j = corr_matrix s nx nt Xu 0 b i j.
Proof. intros E Hi Hj. rewrite !corr_matrix_spec by assumption. destruct (Nat.eqb i j); [rewrite E by exact Hi|]; reflexivity. Qed.
Lemma het_inv m : het_train qr rcond condF nx 1 n po s nugget noise0 X yy 0 = Some m -> exists n0, het_ok n0 m.
Proof.
  intros E. unfold het_train in E. cbv zeta in E. fold Xn in E. fold l in E. fold nt in E. fold idx in E. destruct (bcast nt noise0) as [n0|] eqn:EB; [|discriminate].
  destruct (Nat.leb_spec nt 1); [discriminate|]. destruct (Nat.ltb_spec nt (n_regr po nx)) as [|Hp]; [discriminate|].
  match type of E with match ?t with _ => _ end = _ => destruct t as [vv pr| |] eqn:EL; try discriminate end. injection E as <-.
  destruct (fit_facts qr rcond condF _ _ _ _ _ _ _ _ _ HQ HR Hp (corr_matrix_sym _ _ _ _ _ _) EL) as [O S2].
  assert (EN : forall u, (u < nt)%nat -> noise_rep n 1 idx (fun a j => ynorm n (fun i => yy i j) a) n0 u = opt_noise n idx v n0 u / count n idx u) by (intros; apply noise_rep1; assumption).
  exists n0. split; cbn [m_par]; try assumption; try lia; try reflexivity.
  - destruct O as [O1 O2 O3 O4 O5 O6 O7 O8 O9].
    assert (Ey : y_mean_rep n 1 idx (fun a j => ynorm n (fun i => yy i j) a) = yu) by (apply functional_extensionality; intros u; apply y_rep). rewrite Ey in *.
    split; try assumption. eapply chol_factor_ext; [|exact O1]. intros i j Hi Hj. apply corr_ext; [exact EN|exact Hi|lia].
  - assert (Ey : y_mean_rep n 1 idx (fun a j => ynorm n (fun i => yy i j) a) = yu) by (apply functional_extensionality; intros u; apply y_rep). rewrite Ey in S2. exact S2.
Qed.
Section M.
Variables (n0 : vec) (m : model).
Hypothesis T : het_ok n0 m.
Hypothesis Nn : forall u, (u < nt)%nat -> 0 <= n0 u.
Let Ku : mat := fun a b => kf s nx (Xu a) (Xu b).
Let on := opt_noise n idx v n0.
Let Fu : mat := fun i j => fvec po nx (Xu i) j.
Let xs (x : vec) : vec := fun c => (x c - mean n (fun a => X a c)) / scale1 n (fun a => X a c).
Let ru (x : vec) : vec := fun u => kf s nx (xs x) (Xu u).
Let Rm := corr_matrix s nx nt Xu 0 (fun u => on u / count n idx u).
Let Kred : mat := fun a b => Ku a b + (if Nat.eqb a b then on a / count n idx a else 0).
Let Kfull : mat := fun i j => Ku (idx i) (idx j) + (if Nat.eqb i j then on (idx i) else 0).
Lemma on_nonneg u : (u < nt)%nat -> 0 <= on u.
Proof.
  intros Hu. unfold on, opt_noise. cbv zeta. destruct (Req_EM_T _ 0); [apply Nn; exact Hu|]. pose proof (cp1 u Hu). apply Rmult_le_pos; [apply gs_nonneg; intros; apply pow2_ge_0|].
  destruct (Req_dec (count n idx u - 1) 0) as [E|E]; [rewrite E, Rinv_0; lra|]. apply Rlt_le, Rinv_0_lt_compat. lra.
Qed.
Lemma Rm_eq a b : (a < nt)%nat -> (b < nt)%nat -> Rm a b = Kred a b.
Proof. intros Ha Hb. unfold Rm, Kred, Ku. rewrite corr_matrix_spec by assumption. destruct (Nat.eqb_spec a b) as [<- | N]; [rewrite kf_diag; ring|ring]. Qed.
Lemma Rm_sym : msym nt Rm. Proof. apply corr_matrix_sym. Qed.
Lemma Xu_idx i : (i < n)%nat -> same nx (Xn i) (Xu (idx i)). Proof. intros Hi. apply (inverse_same nx Xn n i Hi). Qed.
Lemma kf_idx i j : (i < n)%nat -> (j < n)%nat -> kf s nx (Xn i) (Xn j) = Ku (idx i) (idx j).
Proof. intros Hi Hj. apply kd_ext. intros c Hc. rewrite (Xu_idx i Hi c Hc), (Xu_idx j Hj c Hc). reflexivity. Qed.
(** the full-data problem, with noise [on (idx i)] at observation i *)
Lemma d_corr_full i j : (i < n)%nat -> (j < n)%nat -> d_corr nx n s 0 (fun i => on (idx i)) X i j = Kfull i j.
Proof.
  intros Hi Hj. unfold d_corr, Kfull. change (q_std n X (X i)) with (Xn i). change (q_std n X (X j)) with (Xn j). rewrite kf_idx by assumption. destruct (Nat.eqb_spec i j) as [<- | N]; [|ring].
  unfold Ku. rewrite kf_diag. ring.
Qed.
Lemma q_corr_full x i : (i < n)%nat -> q_corr nx n s X x i = ru x (idx i).
Proof. intros Hi. apply kd_ext. intros c Hc. change (q_std n X (X i) c) with (Xn i c). rewrite (Xu_idx i Hi c Hc). reflexivity. Qed.
Lemma d_trend_full i j : (i < n)%nat -> d_trend nx n po X i j = Fu (idx i) j.
Proof. intros Hi. apply fvec_ext. intros c Hc. apply (Xu_idx i Hi c Hc). Qed.
Lemma q_mse_full x w : q_mse nx n s 0 (fun i => on (idx i)) X x w = mse n Kfull (fun i => ru x (idx i)) w.
Proof. apply mse_ext; [apply d_corr_full|apply q_corr_full]. Qed.
Lemma q_unb x w : unbiased n p (d_trend nx n po X) (q_trend nx n po X x) w <-> unbiased n p (fun i j => Fu (idx i) j) (fvec po nx (xs x)) w.
Proof. split; intros H j Hj; specialize (H j Hj); (etransitivity; [|exact H]); apply rsum_ext; intros i Hi; rewrite d_trend_full by exact Hi; reflexivity. Qed.
Lemma q_blup_full x w : q_blup nx n po s 0 (fun i => on (idx i)) X x w <-> blup n p Kfull (fun i j => Fu (idx i) j) (fun i => ru x (idx i)) (fvec po nx (xs x)) w.
Proof.
  unfold q_blup. assert (E : forall w, mse n (d_corr nx n s 0 (fun i => on (idx i)) X) (q_corr nx n s X x) w = mse n Kfull (fun i => ru x (idx i)) w) by (intros; apply (q_mse_full x)).
  unfold blup. split; intros [U B]; (split; [apply q_unb; exact U|]); intros w' U'; specialize (B w' (proj2 (q_unb x w') U')) || specialize (B w' (proj1 (q_unb x w') U')); rewrite ?E in *; exact B.
Qed.
Let W (x : vec) : vec := wstar nt p (m_par m) (ru x) (fvec po nx (xs x)).
Lemma blup_red x : blup nt p Kred Fu (ru x) (fvec po nx (xs x)) (W x).
Proof.
  pose proof (w_blup nt p Rm Fu yu (m_par m) Rm_sym (h_fit _ _ T) (ru x) (fvec po nx (xs x))) as [U B]. fold (W x) in U, B.
  assert (E : forall w, mse nt Rm (ru x) w = mse nt Kred (ru x) w) by (intros; apply mse_ext; [apply Rm_eq|reflexivity]).
  split; [exact U|]. intros w' U'. rewrite <- !E. apply B. exact U'.
Qed.
Lemma blup_full x : q_blup nx n po s 0 (fun i => on (idx i)) X x (fun i => W x (idx i) / count n idx (idx i)).
Proof. apply q_blup_full. apply (blup_spread n nt idx (rep nx Xn n) Hidx Hrp Ku on Fu (ru x) (fvec po nx (xs x)) p on_nonneg (W x) (blup_red x)). Qed.
Lemma value_het x : predict_value m x = mean n y + scale1 n y * (dot p (fvec po nx (xs x)) (p_beta (m_par m)) + dot nt (ru x) (p_gamma (m_par m))).
Proof. unfold predict_value, rvec, xn. rewrite (h_m _ _ T). reflexivity. Qed.
Lemma yv i : mean n y + scale1 n y * v i = y i. Proof. unfold v, ynorm. field. apply scale1_nz. Qed.
Lemma value_full x : predict_value m x = dot n (fun i => W x (idx i) / count n idx (idx i)) y.
Proof.
  rewrite value_het. rewrite <- (w_mean nt p Rm Fu yu (m_par m) (h_fit _ _ T) (ru x) (fvec po nx (xs x))). fold (W x).
  rewrite (dot_ext n (fun i => W x (idx i) / count n idx (idx i)) y (fun i => W x (idx i) / count n idx (idx i)) (fun i => mean n y * 1 + scale1 n y * v i)) by (intros; try reflexivity; rewrite <- (yv i) at 1; ring).
  rewrite dot_plus_r, !dot_scal_r. rewrite !(dot_spread n nt idx Hidx (W x)).
  replace (dot nt (W x) (fun u => masked_sum n idx u (fun _ => 1) / count n idx u)) with 1; [unfold yu; ring|].
  symmetry. rewrite (dot_ext nt _ _ (W x) (fun _ => 1)).
  - pose proof (w_unbiased nt p Rm Fu yu (m_par m) (h_fit _ _ T) (ru x) (fvec po nx (xs x)) 0%nat (n_regr_pos po nx)) as U. rewrite fvec_0 in U. refine (eq_trans _ U). apply rsum_ext. intros a Ha. unfold Fu. rewrite fvec_0. fold (W x). ring.
  - reflexivity.
  - intros u Hu. cbv beta. change (masked_sum n idx u (fun _ => 1)) with (count n idx u). pose proof (cp u Hu). field. lra.
Qed.
Lemma mse_full_eq x w : q_blup nx n po s 0 (fun i => on (idx i)) X x w -> q_mse nx n s 0 (fun i => on (idx i)) X x w = mse nt Rm (ru x) (W x).
Proof.
  intros B. rewrite q_mse_full. apply q_blup_full in B. refine (eq_trans (blup_mse_eq n nt idx (rep nx Xn n) Hidx Hrp Ku on Fu (ru x) (fvec po nx (xs x)) p on_nonneg (W x) w (blup_red x) B) _).
  symmetry. apply mse_ext; [apply Rm_eq|reflexivity].
Qed.
(** every best linear unbiased predictor of the full data gives the prediction *)
Lemma s2_nonneg : 0 <= p_sigma2 (m_par m).
Proof.
  rewrite (h_s2 _ _ T). apply Rmult_le_pos; [|apply pow2_ge_0]. apply Rmult_le_pos; [apply dot_self_nonneg|]. apply Rlt_le, Rinv_0_lt_compat. apply lt_0_INR. pose proof (h_nt _ _ T). lia.
Qed.
Hypothesis K : k_ok s nx.
Lemma mse_pos x w : 0 <= mse nt Rm (ru x) w.
Proof.
  unfold mse, Rm. rewrite corr_matrix_form.
  pose proof (kf_psd s nx (S nt) (fun a => if Nat.ltb a nt then Xu a else xs x) K (fun a => if Nat.ltb a nt then w a else -1)) as P. cbn [rsum] in P. rewrite Nat.ltb_irrefl in P.
  assert (L : forall a, (a < nt)%nat -> Nat.ltb a nt = true) by (intros; apply Nat.ltb_lt; assumption).
  rewrite (rsum_ext nt (fun j => -1 * (if Nat.ltb j nt then w j else -1) * kf s nx (xs x) (if Nat.ltb j nt then Xu j else xs x)) (fun j => - (w j * ru x j))) in P by (intros j Hj; rewrite L by exact Hj; unfold ru; ring).
  rewrite (rsum_ext nt (fun i => rsum nt _ + _) (fun i => rsum nt (fun j => w i * w j * kf s nx (Xu i) (Xu j)) - w i * ru x i)) in P.
  2:{ intros i Hi. rewrite !L by exact Hi. rewrite (rsum_ext nt _ (fun j => w i * w j * kf s nx (Xu i) (Xu j))) by (intros j Hj; rewrite L by exact Hj; reflexivity). unfold ru. rewrite (kf_sym s nx (xs x)). ring. }
  rewrite rsum_minus, rsum_opp, kf_diag in P. fold (dot nt w (ru x)) in P.
  assert (0 <= rsum nt (fun i => (0 + on i / count n idx i) * w i ^ 2)). { apply rsum_nonneg. intros i Hi. apply Rmult_le_pos; [|apply pow2_ge_0]. rewrite Rplus_0_l. apply Rmult_le_pos; [apply on_nonneg; exact Hi|]. apply Rlt_le, Rinv_0_lt_compat, cp. exact Hi. }
  lra.
Qed.
Lemma variance_het x w : po = PConstant -> q_blup nx n po s 0 (fun i => on (idx i)) X x w -> predict_variance m x = p_sigma2 (m_par m) * q_mse nx n s 0 (fun i => on (idx i)) X x w.
Proof.
  intros Ep B. rewrite (mse_full_eq x w B).
  pose proof (w_mse nt p Rm Fu yu (m_par m) Rm_sym (h_fit _ _ T) (ru x) (fvec po nx (xs x))) as E. fold (W x) in E.
  assert (Q : mse nt Rm (ru x) (W x) = 1 - dot nt (rt m x) (rt m x) + dot p (solve_triangular p (tr (p_G (m_par m))) (u_rhs m x) false) (solve_triangular p (tr (p_G (m_par m))) (u_rhs m x) false)).
  { rewrite E. unfold rt, u_rhs, rvec, xn. rewrite (h_m _ _ T). cbn [m_nt m_par m_poly m_nx m_k m_Xn m_off m_scale]. f_equal.
    unfold dot, p. rewrite Ep. cbn [n_regr rsum fsub solve_triangular bsub]. unfold upd. cbn [Nat.eqb Nat.sub]. unfold tr. cbn [rsum]. reflexivity. }
  unfold predict_variance. cbv zeta. assert (E1 : m_nt m = nt) by (rewrite (h_m _ _ T); reflexivity). assert (E2 : n_regr (m_poly m) (m_nx m) = p) by (rewrite (h_m _ _ T); reflexivity). rewrite E1, E2, <- Q.
  destruct (Rlt_dec _ 0) as [Lt|]; [|reflexivity]. exfalso. pose proof (Rmult_le_pos _ _ s2_nonneg (mse_pos x (W x))). lra.
Qed.
(** prediction at an observed input *)
Lemma interp_het i : (i < n)%nat -> predict_value m (X i) = mean n y + scale1 n y * yu (idx i) - scale1 n y * (on (idx i) / count n idx (idx i)) * p_gamma (m_par m) (idx i).
Proof.
  intros Hi. rewrite value_het. set (g := p_gamma (m_par m)). set (be := p_beta (m_par m)). pose proof (Hidx i Hi) as Hu. set (u := idx i) in *.
  assert (A : dot nt (ru (X i)) g = mv nt Rm g u - (on u / count n idx u) * g u).
  { unfold dot, mv. rewrite (rsum_ext nt _ (fun a => Rm u a * g a - (if Nat.eqb a u then (on a / count n idx a) * g a else 0))).
    - rewrite rsum_minus. f_equal. apply (rsum_single nt (fun a => (on a / count n idx a) * g a) u Hu).
    - intros a Ha. rewrite Rm_eq by assumption. unfold Kred. assert (Er : ru (X i) a = Ku u a) by (apply kd_ext; intros c Hc; unfold xs; change ((X i c - mean n (fun a0 => X a0 c)) / scale1 n (fun a0 => X a0 c)) with (Xn i c); rewrite (Xu_idx i Hi c Hc); reflexivity).
      rewrite Er, (Nat.eqb_sym a u). destruct (Nat.eqb_spec u a) as [<- | N]; ring. }
  assert (B : mv nt Rm g u = yu u - mv p Fu be u) by (apply (R_gamma nt p Rm Fu yu (m_par m) Rm_sym (h_fit _ _ T) u Hu)).
  assert (Cc : dot p (fvec po nx (xs (X i))) be = mv p Fu be u). { apply rsum_ext. intros j Hj. f_equal. apply fvec_ext. intros c Hc. apply (Xu_idx i Hi c Hc). }
  rewrite A, B, Cc. ring.
Qed.
End M.
End H.
