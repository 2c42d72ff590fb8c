From Coq Require Import Reals Arith Bool List Lia Lra FunctionalExtensionality.
From Coquelicot Require Import Coquelicot.
From Verif Require Import RSum Mat Psd Psd2 Tri_M Tri_P Kernels_M Kernels_P Kernels_P2 Kernels_P3 Krg_M Krg_S Krg_P Krg_P2 Krg_P3 Rbf_P Poly_P.
Import ListNotations.
Open Scope list_scope.
Open Scope R_scope.

Lemma xq_upd nt X x k t : xq nt X (upd x k t) = upd (xq nt X x) k ((t - mean nt (fun a => X a k)) / scale1 nt (fun a => X a k)).
Proof. apply functional_extensionality. intros c. unfold xq, upd. destruct (Nat.eqb_spec c k) as [-> | N]; reflexivity. Qed.
Lemma chain nt X x k (g : vec -> R) d : is_partial g (xq nt X x) k d ->
  is_derive (fun t => g (xq nt X (upd x k t))) (x k) (d / scale1 nt (fun a => X a k)).
Proof.
  intros H. set (o := mean nt (fun a => X a k)). set (sc := scale1 nt (fun a => X a k)). assert (Z : sc <> 0) by apply scale1_nz.
  apply (is_derive_ext (fun t => g (upd (xq nt X x) k ((t - o) / sc)))); [intros t; rewrite xq_upd; reflexivity|].
  unfold is_partial in H. assert (E : xq nt X x k = (x k - o) / sc) by reflexivity. rewrite E in H.
  assert (I : is_derive (fun t : R => (t - o) / sc) (x k) (/ sc)). { auto_derive; [exact Logic.I|]. field. exact Z. }
  pose proof (is_derive_comp (fun z => g (upd (xq nt X x) k z)) (fun t : R => (t - o) / sc) (x k) d (/ sc) H I) as C.
  match type of C with is_derive _ _ ?v => replace (d / sc) with v; [exact C|] end. change (/ sc * d = d / sc). unfold Rdiv. ring.
Qed.
Lemma fvec_linear nx x j : (j < 1 + nx)%nat -> fvec PLinear nx x j = if Nat.eqb j 0 then 1 else x (j - 1)%nat.
Proof.
  intros H. unfold fvec, regr. destruct j as [|j]; [reflexivity|]. cbn [nth Nat.eqb]. rewrite (nth_indep _ 0 (x nx)) by (rewrite map_length, seq_length; lia). rewrite (map_nth x). rewrite seq_nth by lia. f_equal. lia.
Qed.
Definition dfv (po : poly) (j kx : nat) : R := match df po j kx with Some v => v | None => 0 end.
Lemma fvec_partial po nx z j kx : po <> PQuadratic -> (j < n_regr po nx)%nat -> (kx < nx)%nat -> is_partial (fun z => fvec po nx z j) z kx (dfv po j kx).
Proof.
  intros N Hj Hk. unfold is_partial. destruct po; try congruence; cbn [n_regr] in Hj; unfold dfv, df.
  - apply (is_derive_ext (fun _ => fvec PConstant nx z j)); [intros t; unfold fvec; reflexivity|]. apply derive_cst.
  - apply (is_derive_ext (fun t => if Nat.eqb j 0 then 1 else upd z kx t (j - 1)%nat)); [intros t; symmetry; apply fvec_linear; exact Hj|].
    destruct (Nat.eqb_spec j 0) as [-> | Nj]; [replace (Nat.eqb 0 (kx + 1)) with false by (symmetry; apply Nat.eqb_neq; lia); apply derive_cst|].
    pose proof (derive_x z kx (j - 1)%nat) as D. destruct (Nat.eqb_spec j (kx + 1)) as [E|E].
    + replace (Nat.eqb (j - 1) kx) with true in D by (symmetry; apply Nat.eqb_eq; lia). exact D.
    + replace (Nat.eqb (j - 1) kx) with false in D by (symmetry; apply Nat.eqb_neq; lia). exact D.
Qed.
Lemma kf_partial s nx z w kx : k_ok s nx -> k_corr s = SquarExp -> (kx < nx)%nat ->
  is_partial (fun z => kf s nx z w) z kx (- (2 * eff_theta s kx * (z kx - w kx) * kf s nx z w)).
Proof.
  intros K E Hk. destruct s as [c th|c nc co th]; cbn [k_corr k_ok eff_theta] in *; subst c.
  - destruct (dx_ok SquarExp nx 0 th z w kx ltac:(congruence) Hk (proj2 K) ltac:(congruence)) as (v & Ev & P). cbn [kernel_dx comp_dist_dx] in Ev.
    apply (f_equal (fun o => match o with Some v => v | None => 0 end)) in Ev. cbn beta iota in Ev. rewrite <- Ev in P.
    unfold is_partial in *. match type of P with is_derive _ _ ?v => replace (- (2 * th kx * (z kx - w kx) * kf (KStd SquarExp th) nx z w)) with v; [exact P|] end.
    change (kf (KStd SquarExp th) nx z w) with (corr_of SquarExp nx 0 th z w). ring.
  - pose proof (pls_dx_ok SquarExp nx nc co th z w kx (or_intror eq_refl) Hk (proj2 K) ltac:(congruence)) as P. unfold comp_dist_pls_dx in P.
    unfold is_partial in *. match type of P with is_derive _ _ ?v => replace (- (2 * rsum nc (fun l => th l * co kx l ^ 2) * (z kx - w kx) * kf (KPls SquarExp nc co th) nx z w)) with v; [exact P|] end.
    change (kf (KPls SquarExp nc co th) nx z w) with (corr_of_pls SquarExp nx nc co th z w). ring.
Qed.
Section T.
Variables (nx nt : nat) (po : poly) (s : kspec) (nugget : R) (noise : vec) (X : nat -> vec) (y : vec) (m : model).
Hypothesis T : trained nx nt po s nugget noise X y m.
Lemma derivative_some x kx : (exists v, predict_derivative m x kx = Some v) <-> k_corr s = SquarExp /\ po <> PQuadratic.
Proof.
  unfold predict_derivative. rewrite (t_m _ _ _ _ _ _ _ _ _ T). cbn [m_k m_poly]. destruct (k_corr s); destruct po; split; try (intros [v H]; discriminate); try (intros [? ?]; congruence); try (intros _; split; congruence); intros _; eexists; reflexivity.
Qed.
Lemma derivative_ok x kx v : k_ok s nx -> (kx < nx)%nat -> predict_derivative m x kx = Some v -> is_partial (predict_value m) x kx v.
Proof.
  intros K Hk E. destruct (proj1 (derivative_some x kx) (ex_intro _ v E)) as [Ec Np]. unfold is_partial.
  apply (is_derive_ext (fun t => mean nt y + scale1 nt y * (dot (n_regr po nx) (fvec po nx (xq nt X (upd x kx t))) (p_beta (m_par m)) + dot nt (rq nx nt s X (upd x kx t)) (p_gamma (m_par m))))).
  { intros t. symmetry. apply (value_eq nx nt po s nugget noise X y m T). }
  set (sc := scale1 nt (fun a => X a kx)). assert (Z : sc <> 0) by apply scale1_nz.
  assert (A : is_derive (fun t => dot (n_regr po nx) (fvec po nx (xq nt X (upd x kx t))) (p_beta (m_par m))) (x kx) (rsum (n_regr po nx) (fun j => dfv po j kx / sc * p_beta (m_par m) j))).
  { unfold dot. apply (is_derive_rsum (n_regr po nx) (fun j t => fvec po nx (xq nt X (upd x kx t)) j * p_beta (m_par m) j)). intros j Hj.
    pose proof (chain nt X x kx (fun z => fvec po nx z j) _ (fvec_partial po nx _ j kx Np Hj Hk)) as D.
    exact (derive_mul _ _ _ _ _ D (derive_cst (p_beta (m_par m) j) (x kx))) || (pose proof (derive_mul _ _ _ _ _ D (derive_cst (p_beta (m_par m) j) (x kx))) as M; cbn beta in M;
    match type of M with is_derive _ _ ?v => replace (dfv po j kx / sc * p_beta (m_par m) j) with v; [exact M|] end; match goal with |- ?a = ?b => change (@eq R a b) end; fold sc; ring). }
  assert (B : is_derive (fun t => dot nt (rq nx nt s X (upd x kx t)) (p_gamma (m_par m))) (x kx) (rsum nt (fun i => - (2 * eff_theta s kx * (xq nt X x kx - Xnorm nt X i kx) * rq nx nt s X x i) / sc * p_gamma (m_par m) i))).
  { unfold dot. apply (is_derive_rsum nt (fun i t => rq nx nt s X (upd x kx t) i * p_gamma (m_par m) i)). intros i Hi.
    pose proof (chain nt X x kx (fun z => kf s nx z (Xnorm nt X i)) _ (kf_partial s nx _ (Xnorm nt X i) kx K Ec Hk)) as D.
    pose proof (derive_mul _ _ _ _ _ D (derive_cst (p_gamma (m_par m) i) (x kx))) as M; cbn beta in M.
    match type of M with is_derive _ _ ?v => replace (- (2 * eff_theta s kx * (xq nt X x kx - Xnorm nt X i kx) * rq nx nt s X x i) / sc * p_gamma (m_par m) i) with v; [exact M|] end.
    match goal with |- ?a = ?b => change (@eq R a b) end. unfold rq. fold sc. ring. }
  pose proof (is_derive_plus _ _ _ _ _ A B) as AB. pose proof (is_derive_scal _ _ (scale1 nt y) _ AB) as S. pose proof (is_derive_plus _ _ _ _ _ (derive_cst (mean nt y) (x kx)) S) as P.
  match type of P with is_derive _ _ ?d => replace v with d; [exact P|] end.
  unfold predict_derivative in E. rewrite (t_m _ _ _ _ _ _ _ _ _ T) in E. cbn [m_k m_poly m_nx m_nt m_par m_ystd m_scale m_Xn] in E. rewrite Ec in E.
  assert (E' : v = (dot (n_regr po nx) (fun j => dfv po j kx) (p_beta (m_par m)) - 2 * eff_theta s kx * dot nt (fun i => (xq nt X x kx - Xnorm nt X i kx) * rq nx nt s X x i) (p_gamma (m_par m))) * scale1 nt y / sc).
  { destruct po; try congruence; apply (f_equal (fun o => match o with Some v => v | None => 0 end)) in E; cbn beta iota in E; rewrite <- E; reflexivity. }
  rewrite E'. change (0 + scale1 nt y * (rsum (n_regr po nx) (fun j => dfv po j kx / sc * p_beta (m_par m) j) + rsum nt (fun i => - (2 * eff_theta s kx * (xq nt X x kx - Xnorm nt X i kx) * rq nx nt s X x i) / sc * p_gamma (m_par m) i)) = (dot (n_regr po nx) (fun j => dfv po j kx) (p_beta (m_par m)) - 2 * eff_theta s kx * dot nt (fun i => (xq nt X x kx - Xnorm nt X i kx) * rq nx nt s X x i) (p_gamma (m_par m))) * scale1 nt y / sc).
  unfold dot. rewrite (rsum_ext (n_regr po nx) _ (fun j => dfv po j kx * p_beta (m_par m) j * / sc)) by (intros; field; exact Z).
  rewrite (rsum_ext nt (fun i => - _ / sc * _) (fun i => (xq nt X x kx - Xnorm nt X i kx) * rq nx nt s X x i * p_gamma (m_par m) i * (- (2 * eff_theta s kx) / sc))) by (intros; field; exact Z).
  rewrite !rsum_scal_r. field. exact Z.
Qed.
End T.
(** ** affine changes of the data *)
Lemma mean_affine n a c v : (0 < n)%nat -> mean n (fun i => a * v i + c) = a * mean n v + c.
Proof. intros H. unfold mean. rewrite rsum_plus, rsum_scal_l, rsum_const. field. apply not_0_INR. lia. Qed.
Lemma std_affine n a c v : (0 < n)%nat -> 0 < a -> std1 n (fun i => a * v i + c) = a * std1 n v.
Proof.
  intros H Ha. unfold std1. rewrite (rsum_ext n _ (fun i => a ^ 2 * (v i - mean n v) ^ 2)) by (intros; rewrite mean_affine by exact H; ring). rewrite rsum_scal_l.
  unfold Rdiv. rewrite Rmult_assoc. rewrite sqrt_mult_alt by (apply pow2_ge_0). rewrite sqrt_pow2 by lra. reflexivity.
Qed.
Lemma scale_affine n a c v : (0 < n)%nat -> 0 < a -> std1 n v <> 0 -> scale1 n (fun i => a * v i + c) = a * scale1 n v.
Proof.
  intros H Ha N. unfold scale1. rewrite std_affine by assumption. destruct (Req_EM_T (std1 n v) 0); [congruence|]. destruct (Req_EM_T (a * std1 n v) 0) as [E|]; [|reflexivity].
  exfalso. apply Rmult_integral in E. destruct E; lra.
Qed.
Lemma std_zero n v : (2 <= n)%nat -> std1 n v = 0 -> forall i, (i < n)%nat -> v i = mean n v.
Proof.
  intros H E i Hi. unfold std1 in E. assert (P : 0 < INR n - 1) by (replace 1 with (INR 1) by reflexivity; rewrite <- minus_INR by lia; apply lt_0_INR; lia).
  assert (Q : 0 <= rsum n (fun i => (v i - mean n v) ^ 2)) by (apply rsum_nonneg; intros; apply pow2_ge_0).
  apply sqrt_eq_0 in E; [|apply Rmult_le_pos; [exact Q|apply Rlt_le, Rinv_0_lt_compat, P]].
  assert (Z : rsum n (fun i => (v i - mean n v) ^ 2) = 0). { apply (Rmult_eq_reg_r (/ (INR n - 1))); [rewrite Rmult_0_l; exact E|]. apply Rinv_neq_0_compat. lra. }
  pose proof (rsum_zero_inv n _ (fun i _ => pow2_ge_0 (v i - mean n v)) Z i Hi) as W. cbn beta in W. apply Rsqr_0_uniq in W || (replace ((v i - mean n v) ^ 2) with (Rsqr (v i - mean n v)) in W by (unfold Rsqr; ring); apply Rsqr_0_uniq in W). lra.
Qed.
(** standardised values do not change *)
Lemma norm_affine n a c v : (2 <= n)%nat -> 0 < a -> forall i, (i < n)%nat ->
  (a * v i + c - mean n (fun i => a * v i + c)) / scale1 n (fun i => a * v i + c) = (v i - mean n v) / scale1 n v.
Proof.
  intros H Ha i Hi. rewrite mean_affine by lia. destruct (Req_dec (std1 n v) 0) as [E|N].
  - rewrite (std_zero n v H E i Hi). unfold Rdiv. replace (a * mean n v + c - (a * mean n v + c)) with 0 by ring. replace (mean n v - mean n v) with 0 by ring. ring.
  - rewrite scale_affine by (assumption || lia). field. split; [apply scale1_nz|lra].
Qed.
