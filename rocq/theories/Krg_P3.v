From Coq Require Import Reals Arith Bool List Lia Lra.
From Coquelicot Require Import Coquelicot.
From Verif Require Import RSum Mat Psd Psd2 Tri_M Tri_P Kernels_M Kernels_P Kernels_P2 Kernels_P3 Krg_M Krg_S Krg_P Krg_P2.
Import ListNotations.
Open Scope list_scope.
Open Scope R_scope.

Lemma quad_len x nx k f0 : (k <= nx)%nat ->
  (2 * length (fold_left (fun f k => f ++ map (fun j => (x k * x j)%R) (seq k (nx - k))) (seq 0 k) f0) = 2 * length f0 + k * (2 * nx + 1 - k))%nat.
Proof.
  induction k as [|k IH]; intros H; [cbn; lia|]. rewrite seq_S, fold_left_app. cbn [fold_left Nat.add]. rewrite app_length, map_length, seq_length. specialize (IH ltac:(lia)). nia.
Qed.
Lemma regr_length po nx x : length (regr po nx x) = n_regr po nx.
Proof.
  destruct po; cbn [regr n_regr length]; [reflexivity|rewrite map_length, seq_length; reflexivity|].
  pose proof (quad_len x nx nx (1 :: map x (seq 0 nx)) ltac:(lia)) as E. cbn [length] in E. rewrite map_length, seq_length in E.
  assert (nx * (nx + 1) / 2 = length (fold_left (fun f k => f ++ map (fun j => (x k * x j)%R) (seq k (nx - k))) (seq 0 nx) (1%R :: map x (seq 0 nx))) - 1 - nx)%nat; [|nia].
  symmetry. apply Nat.div_unique with 0%nat; [lia|]. nia.
Qed.
Lemma regr_head po nx x : exists l, regr po nx x = 1 :: l.
Proof.
  destruct po; cbn [regr]; try (eexists; reflexivity). generalize (seq 0 nx) at 1. intros ks. generalize (map x (seq 0 nx)). induction ks as [|k ks IH]; intros l; [eexists; reflexivity|]. cbn [fold_left app]. apply IH.
Qed.
Lemma fvec_0 po nx x : fvec po nx x 0 = 1.
Proof. unfold fvec. destruct (regr_head po nx x) as [l ->]. reflexivity. Qed.
Lemma n_regr_pos po nx : (0 < n_regr po nx)%nat.
Proof. destruct po; cbn; lia. Qed.
Lemma fvec_ext po nx x x' j : (forall c, (c < nx)%nat -> x c = x' c) -> fvec po nx x j = fvec po nx x' j.
Proof.
  intros H. unfold fvec. f_equal. destruct po; cbn [regr]; [reflexivity| |].
  - f_equal. apply map_ext_in. intros c Hc. apply in_seq in Hc. apply H. lia.
  - assert (M : map x (seq 0 nx) = map x' (seq 0 nx)) by (apply map_ext_in; intros c Hc; apply in_seq in Hc; apply H; lia). rewrite M. clear M.
    generalize (1 :: map x' (seq 0 nx)). assert (K : forall k, In k (seq 0 nx) -> (k < nx)%nat) by (intros k Hk; apply in_seq in Hk; lia).
    revert K. generalize (seq 0 nx). intros ks. induction ks as [|k ks IH]; intros K l; [reflexivity|]. cbn [fold_left].
    rewrite IH by (intros; apply K; right; assumption). f_equal. f_equal. apply map_ext_in. intros c Hc. apply in_seq in Hc. assert (k < nx)%nat by (apply K; left; reflexivity). rewrite !H by lia. reflexivity.
Qed.
(** ** a trained model *)
Definition Fmat (po : poly) (nx nt : nat) (X : nat -> vec) : mat := fun i j => fvec po nx (Xnorm nt X i) j.
Record trained (nx nt : nat) (po : poly) (s : kspec) (nugget : R) (noise : vec) (X : nat -> vec) (y : vec) (m : model) : Prop := {
  t_nt : (2 <= nt)%nat;
  t_p : (n_regr po nx <= nt)%nat;
  t_m : m = {| m_nx := nx; m_nt := nt; m_poly := po; m_k := s; m_Xn := Xnorm nt X;
               m_off := (fun c => mean nt (fun a => X a c)); m_scale := (fun c => scale1 nt (fun a => X a c));
               m_ymean := mean nt y; m_ystd := scale1 nt y; m_par := m_par m |};
  t_fit : fit_ok nt (n_regr po nx) (corr_matrix s nx nt (Xnorm nt X) nugget noise) (Fmat po nx nt X) (ynorm nt y) (m_par m);
  t_s2 : p_sigma2 (m_par m) = dot nt (rho_of nt (n_regr po nx) (ynorm nt y) (m_par m)) (rho_of nt (n_regr po nx) (ynorm nt y) (m_par m)) / INR nt * (scale1 nt y) ^ 2 }.
Lemma train_inv qr rcond condF nx nt po s nugget noise X y m : qr_contract qr -> rcond_contract rcond ->
  krg_train qr rcond condF nx nt po s nugget noise X y = Some m -> trained nx nt po s nugget noise X y m.
Proof.
  intros HQ HR E. unfold krg_train in E. cbv zeta in E. destruct (Nat.leb_spec nt 1); [discriminate|]. destruct (Nat.ltb_spec nt (n_regr po nx)) as [|Hp]; [discriminate|].
  destruct (reduced_likelihood _ _ _ _ _ _ _ _ _ _) as [v pr| |] eqn:EL; try discriminate. injection E as <-.
  destruct (fit_facts qr rcond condF _ _ _ _ _ _ _ _ _ HQ HR Hp (corr_matrix_sym _ _ _ _ _ _) EL) as [O S2]. split; cbn [m_par]; try assumption; try lia. reflexivity.
Qed.
Section T.
Variables (nx nt : nat) (po : poly) (s : kspec) (nugget : R) (noise : vec) (X : nat -> vec) (y : vec) (m : model).
Hypothesis T : trained nx nt po s nugget noise X y m.
Let p := n_regr po nx.
Let Rm := corr_matrix s nx nt (Xnorm nt X) nugget noise.
Let F := Fmat po nx nt X.
Definition xq (x : vec) : vec := fun c => (x c - mean nt (fun a => X a c)) / scale1 nt (fun a => X a c).
Definition rq (x : vec) : vec := fun i => kf s nx (xq x) (Xnorm nt X i).
Lemma rvec_eq x : rvec m x = rq x.
Proof. rewrite (t_m _ _ _ _ _ _ _ _ _ T). reflexivity. Qed.
Lemma value_eq x : predict_value m x = mean nt y + scale1 nt y * (dot p (fvec po nx (xq x)) (p_beta (m_par m)) + dot nt (rq x) (p_gamma (m_par m))).
Proof. unfold predict_value. rewrite rvec_eq. rewrite (t_m _ _ _ _ _ _ _ _ _ T). reflexivity. Qed.
Lemma ynorm_eq i : mean nt y + scale1 nt y * ynorm nt y i = y i.
Proof. unfold ynorm. field. apply scale1_nz. Qed.
Lemma r_train i a : (i < nt)%nat -> (a < nt)%nat -> rq (X i) a = Rm i a - (if Nat.eqb i a then nugget + noise i else 0).
Proof.
  intros Hi Ha. unfold Rm. rewrite corr_matrix_spec by assumption. unfold rq. change (xq (X i)) with (Xnorm nt X i). destruct (Nat.eqb_spec i a) as [<- | N]; [rewrite kf_diag; ring|ring].
Qed.
Lemma interp i : (i < nt)%nat -> predict_value m (X i) = y i - scale1 nt y * (nugget + noise i) * p_gamma (m_par m) i.
Proof.
  intros Hi. rewrite value_eq. set (g := p_gamma (m_par m)). set (be := p_beta (m_par m)).
  assert (A : dot nt (rq (X i)) g = mv nt Rm g i - (nugget + noise i) * g i).
  { unfold dot, mv. rewrite (rsum_ext nt _ (fun a => Rm i a * g a - (if Nat.eqb a i then (nugget + noise a) * g a else 0))).
    - rewrite rsum_minus. f_equal. apply (rsum_single nt (fun a => (nugget + noise a) * g a) i Hi).
    - intros a Ha. rewrite r_train by assumption. rewrite (Nat.eqb_sym a i). destruct (Nat.eqb_spec i a) as [-> | N]; ring. }
  assert (B : mv nt Rm g i = ynorm nt y i - mv p F be i) by (apply (R_gamma nt p Rm F (ynorm nt y) (m_par m) (corr_matrix_sym _ _ _ _ _ _) (t_fit _ _ _ _ _ _ _ _ _ T) i Hi)).
  assert (Cc : dot p (fvec po nx (xq (X i))) be = mv p F be i) by reflexivity.
  rewrite A, B, Cc. transitivity (mean nt y + scale1 nt y * ynorm nt y i - scale1 nt y * (nugget + noise i) * g i); [ring|rewrite ynorm_eq; reflexivity].
Qed.
(** best linear unbiased prediction *)
Lemma mean_blup x : exists w, blup nt p Rm F (rq x) (fvec po nx (xq x)) w /\ predict_value m x = dot nt w y.
Proof.
  exists (wstar nt p (m_par m) (rq x) (fvec po nx (xq x))).
  pose proof (corr_matrix_sym s nx nt (Xnorm nt X) nugget noise) as S. pose proof (t_fit _ _ _ _ _ _ _ _ _ T) as O. fold p Rm in O. change (Fmat po nx nt X) with F in O.
  split; [apply (w_blup nt p Rm F (ynorm nt y)); assumption|].
  rewrite value_eq. rewrite <- (w_mean nt p Rm F (ynorm nt y) (m_par m) O). set (w := wstar _ _ _ _ _).
  assert (U : rsum nt w = 1).
  { pose proof (w_unbiased nt p Rm F (ynorm nt y) (m_par m) O (rq x) (fvec po nx (xq x)) 0%nat (n_regr_pos po nx)) as U. rewrite fvec_0 in U. fold w in U.
    rewrite <- U. apply rsum_ext. intros a Ha. unfold F, Fmat. rewrite fvec_0. ring. }
  transitivity (mean nt y * rsum nt w + scale1 nt y * dot nt w (ynorm nt y)); [rewrite U; ring|].
  unfold dot. rewrite <- !rsum_scal_l, <- rsum_plus. apply rsum_ext. intros a Ha. transitivity (w a * (mean nt y + scale1 nt y * ynorm nt y a)); [ring|rewrite ynorm_eq; reflexivity].
Qed.
(** ** variance *)
Lemma sigma2_nonneg : 0 <= p_sigma2 (m_par m).
Proof.
  rewrite (t_s2 _ _ _ _ _ _ _ _ _ T). apply Rmult_le_pos; [|apply pow2_ge_0]. apply Rmult_le_pos; [apply dot_self_nonneg|]. apply Rlt_le, Rinv_0_lt_compat. apply lt_0_INR. pose proof (t_nt _ _ _ _ _ _ _ _ _ T). lia.
Qed.
Hypotheses (K : k_ok s nx) (Nn : forall i, (i < nt)%nat -> 0 <= nugget + noise i).
(** for every weight vector the mean squared error is non-negative *)
Lemma mse_nonneg x w : 0 <= mse nt Rm (rq x) w.
Proof.
  unfold mse, Rm. rewrite corr_matrix_form.
  pose proof (kf_psd s nx (S nt) (fun a => if Nat.ltb a nt then Xnorm nt X a else xq x) K (fun a => if Nat.ltb a nt then w a else -1)) as P. cbn [rsum] in P. rewrite Nat.ltb_irrefl in P.
  assert (L : forall a, (a < nt)%nat -> Nat.ltb a nt = true) by (intros; apply Nat.ltb_lt; assumption).
  rewrite (rsum_ext nt (fun j => -1 * (if Nat.ltb j nt then w j else -1) * kf s nx (xq x) (if Nat.ltb j nt then Xnorm nt X j else xq x)) (fun j => - (w j * rq x j))) in P by (intros j Hj; rewrite L by exact Hj; unfold rq; ring).
  rewrite (rsum_ext nt (fun i => rsum nt _ + _) (fun i => rsum nt (fun j => w i * w j * kf s nx (Xnorm nt X i) (Xnorm nt X j)) - w i * rq x i)) in P.
  2:{ intros i Hi. rewrite !L by exact Hi. rewrite (rsum_ext nt _ (fun j => w i * w j * kf s nx (Xnorm nt X i) (Xnorm nt X j))) by (intros j Hj; rewrite L by exact Hj; reflexivity). unfold rq. rewrite (kf_sym s nx (xq x)). ring. }
  rewrite rsum_minus, rsum_opp, kf_diag in P. fold (dot nt w (rq x)) in P.
  assert (0 <= rsum nt (fun i => (nugget + noise i) * w i ^ 2)). { apply rsum_nonneg. intros i Hi. apply Rmult_le_pos; [apply Nn; exact Hi|apply pow2_ge_0]. }
  lra.
Qed.
Lemma rt_bound x : dot nt (rt m x) (rt m x) <= 1.
Proof.
  pose proof (t_fit _ _ _ _ _ _ _ _ _ T) as O. pose proof (corr_matrix_sym s nx nt (Xnorm nt X) nugget noise) as S. fold p Rm in O, S. change (Fmat po nx nt X) with F in O. pose proof (fo_C _ _ _ _ _ _ O) as FC.
  assert (E : rt m x = fsub (p_C (m_par m)) (rq x) nt). { unfold rt. rewrite rvec_eq. rewrite (t_m _ _ _ _ _ _ _ _ _ T). reflexivity. }
  rewrite E. set (q := fsub _ _ nt). set (w := bsub nt (tr (p_C (m_par m))) q nt). pose proof (mse_nonneg x w) as P. unfold mse in P.
  assert (W : forall i, (i < nt)%nat -> mv nt (tr (p_C (m_par m))) w i = q i) by (intros; apply bsub_solves; [apply (chol_upper_tr _ _ _ FC)|apply (chol_diag_tr _ _ _ FC)|assumption]).
  rewrite (chol_form nt Rm _ w S FC) in P. rewrite (dot_ext nt _ _ q q) in P by exact W.
  assert (A : dot nt w (rq x) = dot nt q q).
  { rewrite (dot_ext nt w (rq x) w (mv nt (p_C (m_par m)) q)). - rewrite dot_sym, dot_mv_tr. apply dot_ext; [reflexivity|exact W]. - reflexivity. - intros i Hi. symmetry. apply fsub_solves; [apply (chol_lower _ _ _ FC)|apply (chol_diag _ _ _ FC)|exact Hi]. }
  lra.
Qed.
Lemma diag_bsub q G b : upper q (tr G) \/ True -> forall k i, (k <= q)%nat -> (forall a c, (a < c)%nat -> (c < q)%nat -> tr G a c = 0) -> (q - k <= i < q)%nat -> bsub q (tr G) b k i = b i / G i i.
Proof.
  intros _ k. induction k as [|k IH]; intros i Hk L Hi; [lia|]. cbn [bsub]. unfold upd. destruct (Nat.eqb_spec i (q - S k)) as [-> | N].
  - rewrite rsum_zero by (intros j Hj; rewrite L by lia; ring). rewrite Rminus_0_r. reflexivity.
  - apply IH; [lia|exact L|lia].
Qed.
(** the exact value computed by the code: the triangular solve only sees the diagonal of G' *)
Lemma variance_eq x : predict_variance m x = p_sigma2 (m_par m) * (1 - dot nt (rt m x) (rt m x) + rsum p (fun j => (u_rhs m x j / p_G (m_par m) j j) ^ 2)).
Proof.
  unfold predict_variance. cbv zeta. pose proof (t_fit _ _ _ _ _ _ _ _ _ T) as O. fold p in O.
  assert (E1 : m_nt m = nt) by (rewrite (t_m _ _ _ _ _ _ _ _ _ T); reflexivity). assert (E2 : n_regr (m_poly m) (m_nx m) = p) by (rewrite (t_m _ _ _ _ _ _ _ _ _ T); reflexivity). rewrite E1, E2.
  set (u := solve_triangular p (tr (p_G (m_par m))) (u_rhs m x) false).
  assert (U : dot p u u = rsum p (fun j => (u_rhs m x j / p_G (m_par m) j j) ^ 2)).
  { unfold dot. apply rsum_ext. intros j Hj. unfold u, solve_triangular. rewrite diag_bsub; [ring|right; exact I|lia| |lia]. intros a c Ha Hc. exact (fo_G _ _ _ _ _ _ O c a Hc Ha). }
  rewrite U. destruct (Rlt_dec _ 0) as [L|]; [|reflexivity]. exfalso. pose proof sigma2_nonneg as S2. pose proof (rt_bound x) as B.
  assert (0 <= rsum p (fun j => (u_rhs m x j / p_G (m_par m) j j) ^ 2)) by (apply rsum_nonneg; intros; apply pow2_ge_0).
  assert (0 <= p_sigma2 (m_par m) * (1 - dot nt (rt m x) (rt m x) + rsum p (fun j => (u_rhs m x j / p_G (m_par m) j j) ^ 2))) by (apply Rmult_le_pos; lra). lra.
Qed.
Lemma variance_nonneg x : 0 <= predict_variance m x.
Proof. unfold predict_variance. destruct (Rlt_dec _ 0); lra. Qed.
Lemma u_rhs_eq x j : u_rhs m x j = mv nt (tr (p_Ft (m_par m))) (fsub (p_C (m_par m)) (rq x) nt) j - fvec po nx (xq x) j.
Proof. unfold u_rhs, rt. rewrite rvec_eq. rewrite (t_m _ _ _ _ _ _ _ _ _ T). reflexivity. Qed.
Lemma rt_fsub x : rt m x = fsub (p_C (m_par m)) (rq x) nt.
Proof. unfold rt. rewrite rvec_eq. rewrite (t_m _ _ _ _ _ _ _ _ _ T). reflexivity. Qed.
(** the kriging variance (in units of sigma2): the error of the best linear unbiased predictor *)
Lemma blup_mse x w : blup nt p Rm F (rq x) (fvec po nx (xq x)) w ->
  mse nt Rm (rq x) w = 1 - dot nt (rt m x) (rt m x) + (let u := fsub (tr (p_G (m_par m))) (u_rhs m x) p in dot p u u).
Proof.
  intros B. pose proof (t_fit _ _ _ _ _ _ _ _ _ T) as O. pose proof (corr_matrix_sym s nx nt (Xnorm nt X) nugget noise) as S. fold p Rm in O, S. change (Fmat po nx nt X) with F in O.
  rewrite rt_fsub. rewrite (mse_split nt p Rm F (ynorm nt y) (m_par m) S O (rq x) (fvec po nx (xq x)) w (proj1 B)).
  pose proof (blup_unique nt p Rm F (ynorm nt y) (m_par m) S O (rq x) (fvec po nx (xq x)) w B) as Uq.
  rewrite (dot_ext nt (fun i => w i - wstar nt p (m_par m) (rq x) (fvec po nx (xq x)) i) _ (fun _ => 0) (mv nt Rm (fun i => w i - wstar nt p (m_par m) (rq x) (fvec po nx (xq x)) i))) by (intros i Hi; cbn beta; try rewrite Uq by exact Hi; try ring; reflexivity).
  rewrite (w_mse nt p Rm F (ynorm nt y) (m_par m) S O (rq x) (fvec po nx (xq x))).
  assert (Z : forall v : vec, dot nt (fun _ => 0) v = 0) by (intros v; unfold dot; apply rsum_zero; intros; ring). rewrite Z, Rplus_0_r. f_equal. cbv zeta.
  apply dot_ext; intros i Hi; apply fsub_ext; try reflexivity; intros j Hj; rewrite u_rhs_eq; reflexivity.
Qed.
Lemma variance_constant x w : po = PConstant -> blup nt p Rm F (rq x) (fvec po nx (xq x)) w -> predict_variance m x = p_sigma2 (m_par m) * mse nt Rm (rq x) w.
Proof.
  intros Ep B. rewrite (blup_mse x w B), variance_eq. f_equal. f_equal. cbv zeta. unfold dot, p. subst po. cbn [n_regr rsum fsub]. rewrite upd_eq. unfold tr. cbn [rsum]. rewrite Rminus_0_r. ring.
Qed.
(** at a training point without nugget and noise *)
Lemma variance_train i : (i < nt)%nat -> nugget + noise i = 0 -> predict_variance m (X i) = 0.
Proof.
  intros Hi Z. rewrite variance_eq. pose proof (t_fit _ _ _ _ _ _ _ _ _ T) as O. pose proof (corr_matrix_sym s nx nt (Xnorm nt X) nugget noise) as S. fold p Rm in O, S. change (Fmat po nx nt X) with F in O. pose proof (fo_C _ _ _ _ _ _ O) as FC.
  assert (E : forall a, (a < nt)%nat -> rt m (X i) a = p_C (m_par m) i a).
  { intros a Ha. rewrite rt_fsub. apply Rminus_diag_uniq. apply (lower_inj nt (p_C (m_par m)) (chol_lower _ _ _ FC) (chol_diag _ _ _ FC) (fun a => fsub (p_C (m_par m)) (rq (X i)) nt a - p_C (m_par m) i a)); [|exact Ha].
    intros k Hk. rewrite mv_minus. rewrite fsub_solves; [|apply (chol_lower _ _ _ FC)|apply (chol_diag _ _ _ FC)|exact Hk]. rewrite r_train by assumption.
    assert (Q : mv nt (p_C (m_par m)) (p_C (m_par m) i) k = Rm i k) by (rewrite <- (S k i Hk Hi), <- (chol_mm nt Rm _ S FC k i Hk Hi); reflexivity).
    rewrite Q. destruct (Nat.eqb i k); lra. }
  assert (A : dot nt (rt m (X i)) (rt m (X i)) = 1).
  { rewrite (dot_ext nt _ _ (fun a => p_C (m_par m) i a) (fun a => p_C (m_par m) i a)) by exact E. change (mm nt (p_C (m_par m)) (tr (p_C (m_par m))) i i = 1). rewrite (chol_mm nt Rm _ S FC i i Hi Hi). unfold Rm. rewrite corr_matrix_spec by assumption. rewrite Nat.eqb_refl. lra. }
  rewrite A. rewrite rsum_zero; [ring|]. intros j Hj.
  assert (B : u_rhs m (X i) j = 0).
  { rewrite u_rhs_eq. apply Rminus_diag_eq. transitivity (mv nt (p_C (m_par m)) (fun a => p_Ft (m_par m) a j) i); [|apply (fo_Ft _ _ _ _ _ _ O i j Hi)].
    unfold mv, tr. apply rsum_ext. intros a Ha. rewrite <- rt_fsub, E by exact Ha. ring. }
  rewrite B. unfold Rdiv. ring.
Qed.
Lemma sigma2_gls : exists v, gls_residual nt p Rm F (ynorm nt y) (p_beta (m_par m)) v /\ (forall b v', gls_residual nt p Rm F (ynorm nt y) b v' -> v <= v') /\ p_sigma2 (m_par m) = v / INR nt * scale1 nt y ^ 2.
Proof.
  pose proof (t_fit _ _ _ _ _ _ _ _ _ T) as O. pose proof (corr_matrix_sym s nx nt (Xnorm nt X) nugget noise) as S. fold p Rm in O, S. change (Fmat po nx nt X) with F in O.
  exists (dot nt (rho_of nt p (ynorm nt y) (m_par m)) (rho_of nt p (ynorm nt y) (m_par m))). split; [|split].
  - exists (p_gamma (m_par m)). split; [intros; apply (R_gamma nt p Rm F (ynorm nt y) (m_par m) S O); assumption|]. symmetry. apply (gamma_rho nt p Rm F (ynorm nt y) (m_par m) S O).
  - intros b v'. apply (gls_min nt p Rm F (ynorm nt y) (m_par m) S O).
  - apply (t_s2 _ _ _ _ _ _ _ _ _ T).
Qed.
End T.
