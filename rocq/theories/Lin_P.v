(** Superposition: predictions are linear in the training outputs; trend polynomials are reproduced. *)
From Coq Require Import Reals Arith Bool List Lia Lra FunctionalExtensionality.
From Coquelicot Require Import Coquelicot.
From Verif Require Import RSum Mat Tri_M Tri_P Kernels_M Krg_M Krg_S Krg_P Krg_P2 Krg_P3 Krg_P4 Krg_P8 Trend_T Krg_T.
From Verif Require Idw_M Rbf_M Rbf_S Rbf_P Poly_M Poly_P2.
Open Scope R_scope.
Definition mix (a b : R) (y1 y2 : vec) : vec := fun i => a * y1 i + b * y2 i.
(** ** Kriging *)
Lemma train_y_free qr rcond condF nx nt po s nugget noise X y y' :
  (exists m, krg_train qr rcond condF nx nt po s nugget noise X y = Some m) -> exists m, krg_train qr rcond condF nx nt po s nugget noise X y' = Some m.
Proof.
  intros [m E]. unfold krg_train in *. cbv zeta in *. destruct (Nat.leb nt 1); [discriminate|]. destruct (Nat.ltb nt (n_regr po nx)); [discriminate|]. unfold reduced_likelihood in *. destruct (cholesky _ _) as [C|]; [|discriminate]. cbv zeta in *.
  destruct (qr _ _ _) as [Q G]. destruct (Rlt_dec _ _); [destruct (Rlt_dec _ _); discriminate|]. eexists. reflexivity.
Qed.
Section K.
Variables (qr : nat -> nat -> mat -> mat * mat) (rcond : nat -> mat -> R) (condF : nat -> nat -> mat -> R) (nx nt : nat) (po : poly) (s : kspec) (nugget : R) (noise : vec) (X : nat -> vec).
Hypotheses (HQ : qr_contract qr) (HR : rcond_contract rcond).
Let train y := krg_train qr rcond condF nx nt po s nugget noise X y.
Lemma krg_weights y m : train y = Some m -> exists w : vec -> vec, forall y' m', train y' = Some m' -> forall x, predict_value m' x = dot nt (w x) y' /\ rsum nt (w x) = 1.
Proof.
  intros E. destruct (t_blup_all qr rcond condF HQ HR _ _ _ _ _ _ _ _ _ E) as [w B]. exists w. intros y' m' E' x. split; [exact (t_blup_unique qr rcond condF HQ HR _ _ _ _ _ _ _ _ _ E' x (w x) (B x))|].
  destruct (B x) as [U _]. specialize (U 0%nat (n_regr_pos po nx)). unfold q_trend in U. rewrite fvec_0 in U. rewrite <- U. apply rsum_ext. intros i _. unfold d_trend. rewrite fvec_0. ring.
Qed.
Lemma krg_super y1 y2 a b m1 m2 m3 : train y1 = Some m1 -> train y2 = Some m2 -> train (mix a b y1 y2) = Some m3 -> forall x, predict_value m3 x = a * predict_value m1 x + b * predict_value m2 x.
Proof.
  intros E1 E2 E3 x. destruct (krg_weights y1 m1 E1) as [w W]. rewrite (proj1 (W _ _ E1 x)), (proj1 (W _ _ E2 x)), (proj1 (W _ _ E3 x)). unfold dot, mix. rewrite <- !rsum_scal_l, <- rsum_plus. apply rsum_ext. intros; ring.
Qed.
Lemma krg_super_d y1 y2 a b m1 m2 m3 : train y1 = Some m1 -> train y2 = Some m2 -> train (mix a b y1 y2) = Some m3 -> k_ok s nx -> forall x kx d1 d2 d3, (kx < nx)%nat ->
  predict_derivative m1 x kx = Some d1 -> predict_derivative m2 x kx = Some d2 -> predict_derivative m3 x kx = Some d3 -> d3 = a * d1 + b * d2.
Proof.
  intros E1 E2 E3 K x kx d1 d2 d3 Hk D1 D2 D3.
  pose proof (t_derivative qr rcond condF HQ HR _ _ _ _ _ _ _ _ _ E1 x kx d1 K Hk D1) as P1. pose proof (t_derivative qr rcond condF HQ HR _ _ _ _ _ _ _ _ _ E2 x kx d2 K Hk D2) as P2. pose proof (t_derivative qr rcond condF HQ HR _ _ _ _ _ _ _ _ _ E3 x kx d3 K Hk D3) as P3.
  unfold is_partial in *. rewrite <- (is_derive_unique _ _ _ P3). apply is_derive_unique. apply (is_derive_ext (fun t : R => plus (scal a (predict_value m1 (upd x kx t))) (scal b (predict_value m2 (upd x kx t))))).
  - intros t. symmetry. apply (krg_super y1 y2 a b m1 m2 m3 E1 E2 E3).
  - apply (is_derive_plus (fun t : R => scal a (predict_value m1 (upd x kx t))) (fun t : R => scal b (predict_value m2 (upd x kx t)))); apply is_derive_scal; assumption.
Qed.
(** ** trend polynomials *)
Lemma poly_affine (f : vec -> R) (o sc : vec) : polynomial po nx f -> polynomial po nx (fun z => f (fun c => o c + sc c * z c)).
Proof.
  destruct po; cbn [polynomial].
  - intros (c & H). exists c. intros x. apply H.
  - intros (c & b & H). exists (c + rsum nx (fun i => b i * o i)), (fun i => b i * sc i). intros x. rewrite H. rewrite (rsum_ext nx _ (fun i => b i * o i + b i * sc i * x i)) by (intros; ring). rewrite rsum_plus. ring.
  - intros (c & b & Q & H). exists (c + rsum nx (fun i => b i * o i) + rsum nx (fun i => rsum nx (fun j => Q i j * o i * o j))), (fun i => b i * sc i + rsum nx (fun j => (Q i j * o j + Q j i * o j) * sc i)), (fun i j => Q i j * sc i * sc j).
    intros x. rewrite H. rewrite (rsum_ext nx (fun i => b i * (o i + sc i * x i)) (fun i => b i * o i + b i * sc i * x i)) by (intros; ring). rewrite rsum_plus.
    assert (A : rsum nx (fun i => rsum nx (fun j => Q i j * (o i + sc i * x i) * (o j + sc j * x j))) =
      rsum nx (fun i => rsum nx (fun j => Q i j * o i * o j)) + rsum nx (fun i => rsum nx (fun j => (Q i j * o j) * sc i * x i)) + rsum nx (fun i => rsum nx (fun j => (Q i j * o i) * sc j * x j)) + rsum nx (fun i => rsum nx (fun j => Q i j * sc i * sc j * x i * x j))).
    { rewrite <- !rsum_plus. apply rsum_ext. intros i _. rewrite <- !rsum_plus. apply rsum_ext. intros; ring. }
    rewrite A. rewrite (rsum_swap nx nx (fun i j => Q i j * o i * sc j * x j)).
    rewrite (rsum_ext nx (fun i => (b i * sc i + rsum nx (fun j => (Q i j * o j + Q j i * o j) * sc i)) * x i) (fun i => b i * sc i * x i + rsum nx (fun j => (Q i j * o j) * sc i * x i) + rsum nx (fun j => Q j i * o j * sc i * x i))).
    + rewrite !rsum_plus. ring.
    + intros i _. rewrite Rmult_plus_distr_r, <- rsum_scal_r, Rplus_assoc, <- rsum_plus. f_equal. apply rsum_ext. intros; ring.
Qed.
Lemma poly_ext_in (f : vec -> R) x x' : polynomial po nx f -> (forall c, (c < nx)%nat -> x c = x' c) -> f x = f x'.
Proof.
  intros P E. apply C87_trend_span in P. destruct P as (w & H). rewrite !H. apply rsum_ext. intros j _. rewrite (fvec_ext po nx x x' j E). reflexivity.
Qed.
Lemma poly_span (f : vec -> R) : polynomial po nx f -> exists w : vec, forall x, f x = rsum (n_regr po nx) (fun j => w j * fvec po nx (xq nt X x) j).
Proof.
  intros P. pose proof (poly_affine f (fun c => Krg_M.mean nt (fun a => X a c)) (fun c => scale1 nt (fun a => X a c)) P) as PA. apply C87_trend_span in PA. destruct PA as (w & H). exists w. intros x. rewrite <- H.
  f_equal. apply functional_extensionality. intros c. unfold xq. field. apply scale1_nz.
Qed.
Lemma krg_reproduces y m f : train y = Some m -> polynomial po nx f -> (forall i, (i < nt)%nat -> y i = f (X i)) -> forall x, predict_value m x = f x.
Proof.
  intros E P Y x. pose proof (train_inv _ _ _ _ _ _ _ _ _ _ _ _ HQ HR E) as T. destruct (mean_blup nx nt po s nugget noise X y m T x) as (w & [U _] & ->). destruct (poly_span f P) as (c & H).
  unfold dot. rewrite (rsum_ext nt _ (fun i => rsum (n_regr po nx) (fun j => c j * (Fmat po nx nt X i j * w i)))).
  - rewrite rsum_swap, H. apply rsum_ext. intros j Hj. rewrite rsum_scal_l. f_equal. apply (U j Hj).
  - intros i Hi. rewrite Y, H by exact Hi. rewrite <- rsum_scal_l. apply rsum_ext. intros j _. change (Fmat po nx nt X i j) with (fvec po nx (xq nt X (X i)) j). ring.
Qed.
Lemma krg_reproduces_sigma2 y m f : train y = Some m -> polynomial po nx f -> (forall i, (i < nt)%nat -> y i = f (X i)) -> p_sigma2 (m_par m) = 0.
Proof.
  intros E P Y. pose proof (train_inv _ _ _ _ _ _ _ _ _ _ _ _ HQ HR E) as T. rewrite (t_s2 _ _ _ _ _ _ _ _ _ T).
  set (fn := fun x : vec => (f x - Krg_M.mean nt y) / scale1 nt y).
  assert (Pn : polynomial po nx fn).
  { destruct po; cbn [polynomial] in *.
    - destruct P as (c & H). exists ((c - Krg_M.mean nt y) / scale1 nt y). intros x. unfold fn. rewrite H. reflexivity.
    - destruct P as (c & b & H). exists ((c - Krg_M.mean nt y) / scale1 nt y), (fun i => b i / scale1 nt y). intros x. unfold fn. rewrite H. rewrite (rsum_ext nx (fun i => b i / scale1 nt y * x i) (fun i => b i * x i * / scale1 nt y)) by (intros; unfold Rdiv; ring). rewrite rsum_scal_r. unfold Rdiv. ring.
    - destruct P as (c & b & Q & H). exists ((c - Krg_M.mean nt y) / scale1 nt y), (fun i => b i / scale1 nt y), (fun i j => Q i j / scale1 nt y). intros x. unfold fn. rewrite H. rewrite (rsum_ext nx (fun i => b i / scale1 nt y * x i) (fun i => b i * x i * / scale1 nt y)) by (intros; unfold Rdiv; ring). rewrite rsum_scal_r.
      rewrite (rsum_ext nx (fun i => rsum nx (fun j => Q i j / scale1 nt y * x i * x j)) (fun i => rsum nx (fun j => Q i j * x i * x j) * / scale1 nt y)) by (intros; rewrite <- rsum_scal_r; apply rsum_ext; intros; unfold Rdiv; ring). rewrite rsum_scal_r. unfold Rdiv. ring. }
  destruct (poly_span fn Pn) as (c & H). pose proof (t_fit _ _ _ _ _ _ _ _ _ T) as O.
  pose proof (gls_min nt (n_regr po nx) _ _ (ynorm nt y) (m_par m) (corr_matrix_sym _ _ _ _ _ _) O c 0) as G.
  assert (Z : dot nt (rho_of nt (n_regr po nx) (ynorm nt y) (m_par m)) (rho_of nt (n_regr po nx) (ynorm nt y) (m_par m)) <= 0).
  { apply G. exists (fun _ => 0).
    assert (R0 : forall i, (i < nt)%nat -> ynorm nt y i - mv (n_regr po nx) (Fmat po nx nt X) c i = 0).
    { intros i Hi. unfold ynorm. rewrite Y by exact Hi. change ((f (X i) - Krg_M.mean nt y) / scale1 nt y) with (fn (X i)). rewrite H. unfold mv. apply Rminus_diag_eq. apply rsum_ext. intros j _. change (Fmat po nx nt X i j) with (fvec po nx (xq nt X (X i)) j). ring. }
    split; [intros i Hi; rewrite R0 by exact Hi; apply mv_zero; reflexivity|]. symmetry. apply dot_zero_r. exact R0. }
  pose proof (dot_self_nonneg nt (rho_of nt (n_regr po nx) (ynorm nt y) (m_par m))). assert (D0 : dot nt (rho_of nt (n_regr po nx) (ynorm nt y) (m_par m)) (rho_of nt (n_regr po nx) (ynorm nt y) (m_par m)) = 0) by lra. rewrite D0. unfold Rdiv. ring.
Qed.
Lemma krg_reproduces_variance y m f : train y = Some m -> polynomial po nx f -> (forall i, (i < nt)%nat -> y i = f (X i)) -> forall x, predict_variance m x = 0.
Proof. intros E P Y x. unfold predict_variance. cbv zeta. rewrite (krg_reproduces_sigma2 y m f E P Y), Rmult_0_l. destruct (Rlt_dec 0 0); reflexivity. Qed.
End K.
(** ** the others *)
Lemma idw_super nx nt p xt y1 y2 a b x : Idw_M.idw_value nx nt p xt (mix a b y1 y2) x = a * Idw_M.idw_value nx nt p xt y1 x + b * Idw_M.idw_value nx nt p xt y2 x.
Proof. unfold Idw_M.idw_value, mix. rewrite <- !rsum_scal_l, <- rsum_plus. apply rsum_ext. intros; ring. Qed.
Lemma idw_super_d nx nt p xt y1 y2 a b k x : Idw_M.idw_derivative nx nt p xt (mix a b y1 y2) k x = a * Idw_M.idw_derivative nx nt p xt y1 k x + b * Idw_M.idw_derivative nx nt p xt y2 k x.
Proof. unfold Idw_M.idw_derivative, mix. rewrite <- !rsum_scal_l, <- rsum_plus. apply rsum_ext. intros; ring. Qed.
Lemma rbf_super nx nt deg d0 xt reg y1 y2 a b s1 s2 s3 : (forall k, (k < nx)%nat -> d0 k <> 0) -> 0 <= reg -> (reg = 0 -> Psd2.distinct nx nt xt) -> Rbf_S.trend_full_rank nx nt deg xt ->
  Rbf_M.rbf_solves nx nt deg d0 xt reg y1 s1 -> Rbf_M.rbf_solves nx nt deg d0 xt reg y2 s2 -> Rbf_M.rbf_solves nx nt deg d0 xt reg (mix a b y1 y2) s3 ->
  forall x, Rbf_M.rbf_value nx nt deg d0 xt s3 x = a * Rbf_M.rbf_value nx nt deg d0 xt s1 x + b * Rbf_M.rbf_value nx nt deg d0 xt s2 x /\
  forall k, Rbf_M.rbf_derivative nx nt deg d0 xt s3 k x = a * Rbf_M.rbf_derivative nx nt deg d0 xt s1 k x + b * Rbf_M.rbf_derivative nx nt deg d0 xt s2 k x.
Proof.
  intros Hd Hr Di Fr S1 S2 S3 x.
  assert (S : Rbf_M.rbf_solves nx nt deg d0 xt reg (mix a b y1 y2) (mix a b s1 s2)).
  { intros i Hi. unfold mix. rewrite mv_plus, !mv_scal, S1, S2 by exact Hi. unfold Rbf_M.rbf_rhs. destruct (Nat.ltb i nt); ring. }
  pose proof (Rbf_P.unique nx nt deg d0 xt reg _ s3 _ Hd Hr Di Fr S3 S) as U.
  split; [|intros k]; unfold Rbf_M.rbf_value, Rbf_M.rbf_derivative; rewrite (dot_ext _ _ _ _ _ (fun _ _ => eq_refl) U); unfold dot, mix; rewrite <- !rsum_scal_l, <- rsum_plus; apply rsum_ext; intros; ring.
Qed.
Lemma qp_super inv dim nt xt y1 y2 a b c1 c2 c3 : Poly_M.qp_train inv dim nt xt y1 = Some c1 -> Poly_M.qp_train inv dim nt xt y2 = Some c2 -> Poly_M.qp_train inv dim nt xt (mix a b y1 y2) = Some c3 ->
  forall i, c3 i = a * c1 i + b * c2 i.
Proof.
  unfold Poly_M.qp_train. cbv zeta. destruct (Nat.ltb _ _); [discriminate|]. intros [= <-] [= <-] [= <-] i. rewrite <- !mv_scal, <- mv_plus. apply mv_ext; [reflexivity|]. intros j _. rewrite <- !mv_scal, <- mv_plus. reflexivity.
Qed.
Section Ls.
Variables (lstsq : nat -> nat -> mat -> vec -> vec) (nx nt : nat) (xt : nat -> vec) (y1 y2 : vec) (a b : R).
Hypothesis lstsq_ok : forall (X : mat) (y : vec) k, (k < nx)%nat -> mv nt (tr X) (fun e => mv nx X (lstsq nt nx X y) e - y e) k = 0.
Hypothesis P : (0 < nt)%nat.
Let fit y := Poly_M.ls_fit lstsq nx nt xt y.
Lemma orth_aff y c d : rsum nt (fun e => (rsum nx (fun k => c k * xt e k) + d) * (Poly_M.ls_value nx (fit y) (xt e) - y e)) = 0.
Proof.
  pose proof (Poly_P2.r_orth lstsq nx nt xt y lstsq_ok P) as O. pose proof (Poly_P2.r_sum lstsq nx nt xt y P) as S0.
  rewrite (rsum_ext nt _ (fun e => rsum nx (fun k => c k * (xt e k * (Poly_M.ls_value nx (fit y) (xt e) - y e))) + d * (Poly_M.ls_value nx (fit y) (xt e) - y e))).
  - rewrite rsum_plus, rsum_scal_l, rsum_swap, (rsum_zero nx).
    + unfold fit. rewrite S0. ring.
    + intros k Hk. rewrite rsum_scal_l. unfold fit. rewrite (O k Hk). ring.
  - intros e _. rewrite Rmult_plus_distr_r. f_equal. rewrite <- rsum_scal_r. apply rsum_ext. intros; ring.
Qed.
Lemma ls_super_train e : (e < nt)%nat -> Poly_M.ls_value nx (fit (mix a b y1 y2)) (xt e) = a * Poly_M.ls_value nx (fit y1) (xt e) + b * Poly_M.ls_value nx (fit y2) (xt e).
Proof.
  set (D := fun e => Poly_M.ls_value nx (fit (mix a b y1 y2)) (xt e) - (a * Poly_M.ls_value nx (fit y1) (xt e) + b * Poly_M.ls_value nx (fit y2) (xt e))).
  assert (Da : forall e, D e = rsum nx (fun k => (fst (fit (mix a b y1 y2)) k - a * fst (fit y1) k - b * fst (fit y2) k) * xt e k) + (snd (fit (mix a b y1 y2)) - a * snd (fit y1) - b * snd (fit y2))).
  { intros f. unfold D, Poly_M.ls_value, dot. rewrite (rsum_ext nx (fun k => _ * xt f k) (fun k => xt f k * fst (fit (mix a b y1 y2)) k - a * (xt f k * fst (fit y1) k) - b * (xt f k * fst (fit y2) k))) by (intros; ring). rewrite !rsum_minus, !rsum_scal_l. ring. }
  assert (Z : rsum nt (fun e => D e ^ 2) = 0).
  { rewrite (rsum_ext nt _ (fun e => D e * (Poly_M.ls_value nx (fit (mix a b y1 y2)) (xt e) - mix a b y1 y2 e) - a * (D e * (Poly_M.ls_value nx (fit y1) (xt e) - y1 e)) - b * (D e * (Poly_M.ls_value nx (fit y2) (xt e) - y2 e)))).
    - rewrite !rsum_minus, !rsum_scal_l.
      rewrite (rsum_ext nt (fun i => D i * (Poly_M.ls_value nx (fit (mix a b y1 y2)) (xt i) - mix a b y1 y2 i)) _ (fun e _ => f_equal (fun d => d * (Poly_M.ls_value nx (fit (mix a b y1 y2)) (xt e) - mix a b y1 y2 e)) (Da e))).
      rewrite (rsum_ext nt (fun i => D i * (Poly_M.ls_value nx (fit y1) (xt i) - y1 i)) _ (fun e _ => f_equal (fun d => d * (Poly_M.ls_value nx (fit y1) (xt e) - y1 e)) (Da e))).
      rewrite (rsum_ext nt (fun i => D i * (Poly_M.ls_value nx (fit y2) (xt i) - y2 i)) _ (fun e _ => f_equal (fun d => d * (Poly_M.ls_value nx (fit y2) (xt e) - y2 e)) (Da e))).
      rewrite !orth_aff. ring.
    - intros f _. unfold D, mix. ring. }
  intros He. pose proof (rsum_zero_inv nt (fun e => D e ^ 2) (fun e _ => pow2_ge_0 _) Z e He) as Q. cbn beta in Q. assert (D e = 0) by nra. unfold D in H. lra.
Qed.
Lemma ls_super : (forall a' (b' : vec), (forall i, (i < nt)%nat -> a' + rsum nx (fun k => b' k * xt i k) = 0) -> a' = 0 /\ forall k, (k < nx)%nat -> b' k = 0) ->
  forall x, Poly_M.ls_value nx (fit (mix a b y1 y2)) x = a * Poly_M.ls_value nx (fit y1) x + b * Poly_M.ls_value nx (fit y2) x.
Proof.
  intros F x. destruct (F (snd (fit (mix a b y1 y2)) - a * snd (fit y1) - b * snd (fit y2)) (fun k => fst (fit (mix a b y1 y2)) k - a * fst (fit y1) k - b * fst (fit y2) k)) as [F1 F2].
  - intros i Hi. pose proof (ls_super_train i Hi) as E. unfold Poly_M.ls_value, dot in E.
    rewrite (rsum_ext nx _ (fun k => xt i k * fst (fit (mix a b y1 y2)) k - a * (xt i k * fst (fit y1) k) - b * (xt i k * fst (fit y2) k))) by (intros; ring). rewrite !rsum_minus, !rsum_scal_l. lra.
  - unfold Poly_M.ls_value, dot. rewrite (rsum_ext nx (fun i => x i * fst (fit (mix a b y1 y2)) i) (fun k => a * (x k * fst (fit y1) k) + b * (x k * fst (fit y2) k))).
    + rewrite rsum_plus, !rsum_scal_l. lra.
    + intros k Hk. specialize (F2 k Hk). cbn beta in F2. replace (fst (fit (mix a b y1 y2)) k) with (a * fst (fit y1) k + b * fst (fit y2) k) by lra. ring.
Qed.
End Ls.
