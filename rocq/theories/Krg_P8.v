(** The lemmas of Krg_P*.v restated with the vocabulary of Krg_S.v. *)
From Coq Require Import Reals Arith Bool List Lia Lra FunctionalExtensionality.
From Coquelicot Require Import Coquelicot.
From Verif Require Import RSum Mat Psd Psd2 Tri_M Tri_P Kernels_M Kernels_P Kernels_P2 Kernels_P3 Krg_M Krg_S Krg_P Krg_P2 Krg_P3 Krg_P4 Krg_P5 Krg_P6 Krg_P7 Krg_Qr.
Import ListNotations.
Open Scope list_scope.
Open Scope R_scope.

Lemma mse_ext n A B r r' w : (forall i j, (i < n)%nat -> (j < n)%nat -> A i j = B i j) -> (forall i, (i < n)%nat -> r i = r' i) -> mse n A r w = mse n B r' w.
Proof. intros H Hr. unfold mse. rewrite (dot_ext n w (mv n A w) w (mv n B w)) by (intros i Hi; first [reflexivity | apply mv_ext; [intros; apply H; assumption|reflexivity]]). rewrite (dot_ext n w r w r') by (intros; try reflexivity; apply Hr; assumption). reflexivity. Qed.
Lemma d_corr_eq nx nt s nugget noise X i j : (i < nt)%nat -> (j < nt)%nat -> corr_matrix s nx nt (Xnorm nt X) nugget noise i j = d_corr nx nt s nugget noise X i j.
Proof. intros Hi Hj. rewrite corr_matrix_spec by assumption. reflexivity. Qed.
Lemma q_mse_eq nx nt s nugget noise X x w : q_mse nx nt s nugget noise X x w = mse nt (corr_matrix s nx nt (Xnorm nt X) nugget noise) (rq nx nt s X x) w.
Proof. unfold q_mse. apply mse_ext; [intros; symmetry; apply d_corr_eq; assumption|reflexivity]. Qed.
Lemma q_blup_eq nx nt po s nugget noise X x w : q_blup nx nt po s nugget noise X x w <->
  blup nt (n_regr po nx) (corr_matrix s nx nt (Xnorm nt X) nugget noise) (Fmat po nx nt X) (rq nx nt s X x) (fvec po nx (xq nt X x)) w.
Proof.
  unfold q_blup, blup. assert (E : forall w, mse nt (d_corr nx nt s nugget noise X) (q_corr nx nt s X x) w = mse nt (corr_matrix s nx nt (Xnorm nt X) nugget noise) (rq nx nt s X x) w) by (intros; apply (q_mse_eq nx nt s nugget noise X x)).
  split; intros [U B]; (split; [exact U|]); intros w' U'; specialize (B w' U'); rewrite ?E in *; exact B.
Qed.
Section T.
Variables (qr : nat -> nat -> mat -> mat * mat) (rcond : nat -> mat -> R) (condF : nat -> nat -> mat -> R).
Hypotheses (HQ : qr_contract qr) (HR : rcond_contract rcond).
Variables (nx nt : nat) (po : poly) (s : kspec) (nugget : R) (noise : vec) (X : nat -> vec) (y : vec) (m : model).
Hypothesis Hm : krg_train qr rcond condF nx nt po s nugget noise X y = Some m.
Let T := train_inv qr rcond condF nx nt po s nugget noise X y m HQ HR Hm.
Lemma t_interp i : (i < nt)%nat -> predict_value m (X i) = y i - scale1 nt y * (nugget + noise i) * p_gamma (m_par m) i.
Proof. apply (interp nx nt po s nugget noise X y m T). Qed.
Lemma t_exact i : (i < nt)%nat -> nugget + noise i = 0 -> predict_value m (X i) = y i.
Proof. intros Hi Z. rewrite t_interp by exact Hi. rewrite Z. ring. Qed.
Lemma t_blup x : exists w, q_blup nx nt po s nugget noise X x w /\ predict_value m x = dot nt w y.
Proof. destruct (mean_blup nx nt po s nugget noise X y m T x) as (w & B & E). exists w. split; [apply q_blup_eq; exact B|exact E]. Qed.
Lemma t_blup_unique x w : q_blup nx nt po s nugget noise X x w -> predict_value m x = dot nt w y.
Proof.
  intros B. destruct (mean_blup nx nt po s nugget noise X y m T x) as (w' & B' & ->). apply q_blup_eq in B.
  pose proof (blup_unique nt (n_regr po nx) _ _ (ynorm nt y) (m_par m) (corr_matrix_sym _ _ _ _ _ _) (t_fit _ _ _ _ _ _ _ _ _ T) (rq nx nt s X x) (fvec po nx (xq nt X x))) as U.
  apply dot_ext; [|reflexivity]. intros i Hi. rewrite (U w B i Hi), (U w' B' i Hi). reflexivity.
Qed.
Lemma t_sigma2 : exists v, gls_residual nt (n_regr po nx) (d_corr nx nt s nugget noise X) (d_trend nx nt po X) (ynorm nt y) (p_beta (m_par m)) v /\
  (forall b v', gls_residual nt (n_regr po nx) (d_corr nx nt s nugget noise X) (d_trend nx nt po X) (ynorm nt y) b v' -> v <= v') /\ p_sigma2 (m_par m) = v / INR nt * scale1 nt y ^ 2.
Proof.
  assert (E : forall b v, gls_residual nt (n_regr po nx) (d_corr nx nt s nugget noise X) (d_trend nx nt po X) (ynorm nt y) b v <-> gls_residual nt (n_regr po nx) (corr_matrix s nx nt (Xnorm nt X) nugget noise) (Fmat po nx nt X) (ynorm nt y) b v).
  { intros b v. unfold gls_residual. split; intros (g & Hg & Ev); exists g; (split; [|exact Ev]); intros i Hi; refine (eq_trans _ (Hg i Hi)); apply mv_ext; try reflexivity; intros j Hj; [|symmetry]; apply d_corr_eq; assumption. }
  destruct (sigma2_gls nx nt po s nugget noise X y m T) as (v & A & B & C). exists v. split; [apply E; exact A|]. split; [|exact C]. intros b v' H. apply (B b). apply E. exact H.
Qed.
Lemma t_derivative_some x kx : (exists v, predict_derivative m x kx = Some v) <-> k_corr s = SquarExp /\ po <> PQuadratic.
Proof. apply (derivative_some nx nt po s nugget noise X y m T). Qed.
Lemma t_derivative x kx v : k_ok s nx -> (kx < nx)%nat -> predict_derivative m x kx = Some v -> is_partial (predict_value m) x kx v.
Proof. apply (derivative_ok nx nt po s nugget noise X y m T). Qed.
Hypotheses (K : k_ok s nx) (Nn : forall i, (i < nt)%nat -> 0 <= nugget + noise i).
Lemma t_variance_constant x w : po = PConstant -> q_blup nx nt po s nugget noise X x w -> predict_variance m x = p_sigma2 (m_par m) * q_mse nx nt s nugget noise X x w.
Proof. intros E B. rewrite q_mse_eq. apply (variance_constant nx nt po s nugget noise X y m T K Nn x w E). apply q_blup_eq. exact B. Qed.
Lemma t_variance_train i : (i < nt)%nat -> nugget + noise i = 0 -> predict_variance m (X i) = 0.
Proof. apply (variance_train nx nt po s nugget noise X y m T K Nn). Qed.
(** the code's variance for every trend *)
Lemma t_variance_gap x w : q_blup nx nt po s nugget noise X x w -> exists b G, (forall i j, (i < n_regr po nx)%nat -> (j < i)%nat -> G i j = 0) /\ (forall i, (i < n_regr po nx)%nat -> G i i <> 0) /\
  predict_variance m x - p_sigma2 (m_par m) * q_mse nx nt s nugget noise X x w =
  p_sigma2 (m_par m) * (rsum (n_regr po nx) (fun j => (b j / G j j) ^ 2) - dot (n_regr po nx) (fsub (tr G) b (n_regr po nx)) (fsub (tr G) b (n_regr po nx))).
Proof.
  intros B. apply q_blup_eq in B. exists (u_rhs m x), (p_G (m_par m)). pose proof (t_fit _ _ _ _ _ _ _ _ _ T) as O. split; [apply (fo_G _ _ _ _ _ _ O)|]. split; [apply (fo_D _ _ _ _ _ _ O)|].
  rewrite q_mse_eq, (blup_mse nx nt po s nugget noise X y m T x w B), (variance_eq nx nt po s nugget noise X y m T K Nn). cbv zeta. ring.
Qed.
Lemma t_variance_derivative x kx (w : vec -> vec) : (kx < nx)%nat -> po <> PQuadratic -> (k_corr s = AbsExp -> forall i, (i < nt)%nat -> x kx <> X i kx) ->
  (forall z, q_blup nx nt po s nugget noise X z (w z)) ->
  exists v, predict_variance_derivative m x kx = Some v /\ is_partial (fun z => p_sigma2 (m_par m) * q_mse nx nt s nugget noise X z (w z)) x kx v.
Proof.
  intros Hk Np Hs B. destruct (variance_derivative_ok nx nt po s nugget noise X y m T K x kx Hk Np) with (w := w) as (v & E & P).
  - intros i Hi Ec Q. apply (Hs Ec i Hi). unfold xq, Xnorm in Q. assert (Z : scale1 nt (fun a => X a kx) <> 0) by apply scale1_nz. apply (Rmult_eq_compat_r (scale1 nt (fun a => X a kx))) in Q. unfold Rdiv in Q. rewrite !Rmult_assoc, Rinv_l, !Rmult_1_r in Q by exact Z. lra.
  - intros z. apply q_blup_eq. apply B.
  - exists v. split; [exact E|]. unfold is_partial in *. eapply is_derive_ext; [|exact P]. intros t. cbn beta. rewrite q_mse_eq. reflexivity.
Qed.
Lemma t_blup_all : exists w : vec -> vec, forall z, q_blup nx nt po s nugget noise X z (w z).
Proof.
  exists (fun z => wstar nt (n_regr po nx) (m_par m) (rq nx nt s X z) (fvec po nx (xq nt X z))). intros z. apply q_blup_eq. apply (w_blup nt (n_regr po nx) _ _ (ynorm nt y)); [apply corr_matrix_sym|apply (t_fit _ _ _ _ _ _ _ _ _ T)].
Qed.
Lemma t_variance_derivative_constant x kx : (kx < nx)%nat -> po = PConstant -> (k_corr s = AbsExp -> forall i, (i < nt)%nat -> x kx <> X i kx) ->
  exists v, predict_variance_derivative m x kx = Some v /\ is_partial (predict_variance m) x kx v.
Proof.
  intros Hk Ep Hs. destruct t_blup_all as [w B]. destruct (t_variance_derivative x kx w Hk ltac:(congruence) Hs B) as (v & E & P). exists v. split; [exact E|].
  unfold is_partial in *. eapply is_derive_ext; [|exact P]. intros t. cbn beta. symmetry. apply t_variance_constant; [exact Ep|apply B].
Qed.
Lemma t_variance_derivative_none x kx : po = PQuadratic -> predict_variance_derivative m x kx = None.
Proof. intros Ep. unfold predict_variance_derivative. rewrite (t_m _ _ _ _ _ _ _ _ _ T). cbn [m_poly]. rewrite Ep. cbv zeta. destruct (kd_dx _ _ _ _); reflexivity. Qed.
End T.
Lemma t_nugget_pd s nx nt X nugget noise : k_ok s nx -> (forall i, (i < nt)%nat -> 0 < nugget + noise i) -> exists C, cholesky nt (corr_matrix s nx nt (Xnorm nt X) nugget noise) = Some C.
Proof. intros K H. apply chol_complete; [apply corr_matrix_sym|apply corr_matrix_pd_nugget; assumption]. Qed.
Lemma t_distinct_pd c theta nx nt X nugget noise : c <> ActExp -> (forall j, (j < nx)%nat -> 0 < theta j) ->
  (forall i j, (i < nt)%nat -> (j < nt)%nat -> i <> j -> ~ (forall k, (k < nx)%nat -> X i k = X j k)) -> (forall i, (i < nt)%nat -> 0 <= nugget + noise i) ->
  exists C, cholesky nt (corr_matrix (KStd c theta) nx nt (Xnorm nt X) nugget noise) = Some C.
Proof. intros N Ht D H. apply chol_complete; [apply corr_matrix_sym|]. apply corr_matrix_pd_distinct; try assumption. apply Xnorm_distinct. exact D. Qed.
Lemma t_pairs n X : (0 < n)%nat -> let '(ij, D, rows) := cross_distances n X in
  (2 * rows = n * (n - 1))%nat /\
  (forall p, (p < rows)%nat -> (fst (ij p) < snd (ij p) < n)%nat /\ forall c, D p c = X (fst (ij p)) c - X (snd (ij p)) c) /\
  (forall i j, (i < j < n)%nat -> exists p, (p < rows)%nat /\ ij p = (i, j) /\ forall q, (q < rows)%nat -> ij q = (i, j) -> q = p).
Proof.
  intros H. pose proof (cd_rows n X H) as A. pose proof (cd_each n X) as B. pose proof (cd_pair n X) as C. destruct (cross_distances n X) as [[ij D] rows]. cbn [snd] in A. subst rows. split; [|split; [exact B|exact C]].
  pose proof (off_closed n (n - 1) ltac:(lia)) as E. rewrite off_all in E by exact H. nia.
Qed.
(** ** equivariance *)
Section Aff.
Variables (qr : nat -> nat -> mat -> mat * mat) (rcond : nat -> mat -> R) (condF : nat -> nat -> mat -> R).
Hypotheses (HQ : qr_contract qr) (HR : rcond_contract rcond) (HC : cond_ext condF).
Variables (nx nt : nat) (po : poly) (s : kspec) (nugget : R) (noise : vec) (X : nat -> vec) (y : vec) (m : model).
Variables (A B : vec) (a b : R).
Hypotheses (HA : forall c, (c < nx)%nat -> 0 < A c) (Ha : 0 < a).
Lemma t_affine : krg_train qr rcond condF nx nt po s nugget noise X y = Some m -> (forall c, (c < nx)%nat -> exists i j, (i < nt)%nat /\ (j < nt)%nat /\ X i c <> X j c) ->
  exists m', krg_train qr rcond condF nx nt po s nugget noise (fun i c => A c * X i c + B c) (fun i => a * y i + b) = Some m' /\
  (forall x, predict_value m' (fun c => A c * x c + B c) = a * predict_value m x + b) /\
  (k_ok s nx -> (forall i, (i < nt)%nat -> 0 <= nugget + noise i) -> forall x, predict_variance m' (fun c => A c * x c + B c) = a ^ 2 * predict_variance m x).
Proof.
  intros Hm Hc. pose proof (t_nt _ _ _ _ _ _ _ _ _ (train_inv qr rcond condF nx nt po s nugget noise X y m HQ HR Hm)) as Ht.
  assert (Hs : forall c, (c < nx)%nat -> std1 nt (fun i => X i c) <> 0).
  { intros c Hc' E. destruct (Hc c Hc') as (i & j & Hi & Hj & Ne). apply Ne. rewrite (std_zero nt (fun i => X i c) Ht E i Hi), (std_zero nt (fun i => X i c) Ht E j Hj). reflexivity. }
  eexists. split; [|split].
  - apply (train_affine qr rcond condF HC nx nt po s nugget noise X y A B a b Ht HA Ha m Hm).
  - intros x. eapply value_affine; eassumption.
  - intros K Nn x. eapply variance_affine; eassumption.
Qed.
Lemma t_likelihood : (2 <= nt)%nat ->
  lik (reduced_likelihood qr rcond condF nt (n_regr po nx) (INR nt) (corr_matrix s nx nt (Xnorm nt (fun i c => A c * X i c + B c)) nugget noise) (d_trend nx nt po (fun i c => A c * X i c + B c)) (ynorm nt (fun i => a * y i + b)) (scale1 nt (fun i => a * y i + b))) =
  lik (reduced_likelihood qr rcond condF nt (n_regr po nx) (INR nt) (corr_matrix s nx nt (Xnorm nt X) nugget noise) (d_trend nx nt po X) (ynorm nt y) (scale1 nt y)).
Proof.
  intros Ht. pose proof (rl_affine qr rcond condF HC nx nt po s nugget noise X y A B a b Ht HA Ha) as E. change (d_trend nx nt po (fun i c => A c * X i c + B c)) with (fun i j => fvec po nx (Xnorm nt (fun i c => A c * X i c + B c) i) j). change (d_trend nx nt po X) with (fun i j => fvec po nx (Xnorm nt X i) j).
  refine (eq_trans (f_equal lik E) _). match goal with |- lik (map_fit _ ?o) = _ => destruct o end; reflexivity.
Qed.
End Aff.
