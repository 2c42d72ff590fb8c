(** Proofs for C119: Kriging models with more data. *)
From Coq Require Import Reals Arith Bool List Lia Lra FunctionalExtensionality.
From Verif Require Import RSum Mat Tri_M Tri_P Kernels_M Krg_M Krg_S Krg_P Krg_P2 Krg_P3 Krg_P4 Krg_P8 Trend_T Krg_T Krg_Qr Lin_P Add_S Add_P.
Open Scope R_scope.
Section More.
Variables (nx : nat) (po : poly) (nugget : R) (n N : nat) (s s2 : kspec) (noise noise2 : vec) (X X2 : nat -> vec) (y y2 : vec) (m m2 : model).
Hypotheses (T : trained nx n po s nugget noise X y m) (T2 : trained nx N po s2 nugget noise2 X2 y2 m2).
Hypotheses (EX : extends n N noise X y noise2 X2 y2) (SC : same_correlation nx n s X N s2 X2).
Let k (a b : vec) : R := kf s nx (xq n X a) (xq n X b).
Lemma k2 a b : kf s2 nx (xq N X2 a) (xq N X2 b) = k a b. Proof. exact (SC a b). Qed.
Let ga : vec := fun i => scale1 n y * p_gamma (m_par m) i.
Let ext (w : vec) : vec := fun i => if Nat.ltb i n then w i else 0.
Lemma ext_sum (w : vec) (q : nat -> R) : rsum N (fun i => ext w i * q i) = rsum n (fun i => w i * q i).
Proof.
  rewrite (rsum_tail_zero N n) by (first [exact (proj1 EX)|intros j Hj; unfold ext; destruct (Nat.ltb_spec j n); [lia|ring]]).
  apply rsum_ext. intros i Hi. unfold ext. destruct (Nat.ltb_spec i n); [reflexivity|lia].
Qed.
Lemma ext_sum_X (w : vec) (q : vec -> R) : rsum N (fun i => ext w i * q (X2 i)) = rsum n (fun i => w i * q (X i)).
Proof. rewrite (ext_sum w (fun i => q (X2 i))). apply rsum_ext. intros i Hi. rewrite (proj1 (proj2 EX i Hi)). reflexivity. Qed.
Section Consistent.
Hypothesis CO : forall i, (n <= i < N)%nat -> y2 i = predict_value m (X2 i).
Lemma ext_fits i : (i < N)%nat -> trend_of nx n po X y m (X2 i) + rsum N (fun j => ext ga j * kf s2 nx (xq N X2 (X2 i)) (xq N X2 (X2 j))) + (nugget + noise2 i) * ext ga i = y2 i.
Proof.
  intros Hi. rewrite (rsum_ext N _ (fun j => ext ga j * (fun z => k (X2 i) z) (X2 j))) by (intros j _; rewrite k2; reflexivity). rewrite ext_sum_X.
  pose proof (value_dual nx n po s nugget noise X y m T (X2 i)) as V. change (predict_value m (X2 i) = trend_of nx n po X y m (X2 i) + rsum n (fun i0 => ga i0 * k (X2 i) (X i0))) in V.
  change (trend_of nx n po X y m (X2 i) + rsum n (fun i0 => ga i0 * k (X2 i) (X i0)) + (nugget + noise2 i) * ext ga i = y2 i). rewrite <- V.
  unfold ext. destruct (Nat.ltb_spec i n) as [L|L].
  - destruct (proj2 EX i L) as (E1 & E2 & E3). rewrite E1, E2, E3. rewrite (interp nx n po s nugget noise X y m T i L). unfold ga. ring.
  - rewrite CO by lia. ring.
Qed.
Lemma ext_orth q : polynomial po nx q -> rsum N (fun i => ext ga i * q (X2 i)) = 0.
Proof. intros P. rewrite ext_sum_X. exact (gamma_orthogonal nx n po s nugget noise X y m T q P). Qed.
Lemma same_value x : predict_value m2 x = predict_value m x.
Proof.
  rewrite (dual_value nx N po s2 nugget noise2 X2 y2 m2 T2 (trend_of nx n po X y m) (ext ga) (trend_polynomial nx n po X y m) ext_orth ext_fits x).
  rewrite (value_dual nx n po s nugget noise X y m T x). f_equal. rewrite (rsum_ext N _ (fun i => ext ga i * (fun z => k x z) (X2 i))) by (intros i _; rewrite k2; reflexivity). rewrite ext_sum_X. reflexivity.
Qed.
Lemma same_gamma i : (i < N)%nat -> scale1 N y2 * p_gamma (m_par m2) i = ext ga i.
Proof. exact (dual_gamma nx N po s2 nugget noise2 X2 y2 m2 T2 (trend_of nx n po X y m) (ext ga) (trend_polynomial nx n po X y m) ext_orth ext_fits i). Qed.
End Consistent.
End More.
(** the process variance in terms of the dual coefficients *)
Lemma sigma2_dual nx nt po s nugget noise X y m : trained nx nt po s nugget noise X y m -> let g := fun i => scale1 nt y * p_gamma (m_par m) i in
  p_sigma2 (m_par m) * INR nt = rsum nt (fun i => g i * (rsum nt (fun j => g j * kf s nx (xq nt X (X i)) (xq nt X (X j))) + (nugget + noise i) * g i)).
Proof.
  intros T g. rewrite (t_s2 _ _ _ _ _ _ _ _ _ T). pose proof (t_fit _ _ _ _ _ _ _ _ _ T) as O. pose proof (t_nt _ _ _ _ _ _ _ _ _ T) as Hn.
  rewrite <- (gamma_rho nt _ _ _ _ _ (corr_matrix_sym _ _ _ _ _ _) O). set (q := dot nt (p_gamma (m_par m)) _).
  transitivity (scale1 nt y ^ 2 * q). { field. apply not_0_INR. lia. }
  unfold q, dot. rewrite <- rsum_scal_l. apply rsum_ext. intros i Hi. rewrite <- (R_gamma nt _ _ _ _ _ (corr_matrix_sym _ _ _ _ _ _) O i Hi).
  rewrite <- (R_mv nx nt s nugget noise X g i Hi). unfold g. rewrite mv_scal. ring.
Qed.
Section More2.
Variables (nx : nat) (po : poly) (nugget : R) (n N : nat) (s s2 : kspec) (noise noise2 : vec) (X X2 : nat -> vec) (y y2 : vec) (m m2 : model).
Hypotheses (T : trained nx n po s nugget noise X y m) (T2 : trained nx N po s2 nugget noise2 X2 y2 m2).
Hypotheses (EX : extends n N noise X y noise2 X2 y2) (SC : same_correlation nx n s X N s2 X2).
Lemma same_sigma2 : (forall i, (n <= i < N)%nat -> y2 i = predict_value m (X2 i)) -> p_sigma2 (m_par m2) * INR N = p_sigma2 (m_par m) * INR n.
Proof.
  intros CO. pose proof (sigma2_dual nx N po s2 nugget noise2 X2 y2 m2 T2) as A. pose proof (sigma2_dual nx n po s nugget noise X y m T) as B. cbv zeta in A, B. rewrite A, B. clear A B.
  pose proof (same_gamma nx po nugget n N s s2 noise noise2 X X2 y y2 m m2 T T2 EX SC CO) as G. cbv beta zeta in G.
  set (ga := fun i : nat => scale1 n y * p_gamma (m_par m) i) in *.
  rewrite (rsum_ext N _ (fun i => (if Nat.ltb i n then ga i else 0) * (rsum n (fun j => ga j * kf s nx (xq n X (X2 i)) (xq n X (X j))) + (nugget + noise2 i) * (if Nat.ltb i n then ga i else 0)))).
  - rewrite (ext_sum n N noise noise2 X X2 y y2 EX ga (fun i => rsum n (fun j => ga j * kf s nx (xq n X (X2 i)) (xq n X (X j))) + (nugget + noise2 i) * (if Nat.ltb i n then ga i else 0))).
    apply rsum_ext. intros i Hi. destruct (proj2 EX i Hi) as (E1 & _ & E3). rewrite E1, E3. destruct (Nat.ltb_spec i n); [reflexivity|lia].
  - intros i Hi. rewrite (G i Hi). f_equal. f_equal.
    rewrite (rsum_ext N _ (fun j => (if Nat.ltb j n then ga j else 0) * (fun z => kf s nx (xq n X (X2 i)) (xq n X z)) (X2 j))).
    + exact (ext_sum_X n N noise noise2 X X2 y y2 EX ga (fun z => kf s nx (xq n X (X2 i)) (xq n X z))).
    + intros j Hj. rewrite (G j Hj). f_equal. exact (SC (X2 i) (X2 j)).
Qed.
Lemma mse_more x w w2 : q_blup nx n po s nugget noise X x w -> q_blup nx N po s2 nugget noise2 X2 x w2 -> q_mse nx N s2 nugget noise2 X2 x w2 <= q_mse nx n s nugget noise X x w.
Proof.
  intros [U _] [_ M2]. set (we := fun i => if Nat.ltb i n then w i else 0).
  assert (QS : forall q, rsum N (fun i => we i * q i) = rsum n (fun i => w i * q i)) by (intros q; exact (ext_sum n N noise noise2 X X2 y y2 EX w q)).
  assert (QX : forall q, rsum N (fun i => we i * q (X2 i)) = rsum n (fun i => w i * q (X i))) by (intros q; exact (ext_sum_X n N noise noise2 X X2 y y2 EX w q)).
  assert (E : q_mse nx N s2 nugget noise2 X2 x we = q_mse nx n s nugget noise X x w).
  { unfold q_mse, mse. f_equal. f_equal.
    - unfold dot, mv. rewrite (QS (fun i => rsum N (fun j => d_corr nx N s2 nugget noise2 X2 i j * we j))). apply rsum_ext. intros i Hi. f_equal.
      rewrite (rsum_ext N _ (fun j => we j * d_corr nx N s2 nugget noise2 X2 i j)) by (intros; ring). rewrite (QS (fun j => d_corr nx N s2 nugget noise2 X2 i j)).
      apply rsum_ext. intros j Hj. rewrite Rmult_comm. f_equal. unfold d_corr. destruct (proj2 EX i Hi) as (E1 & _ & E3). destruct (proj2 EX j Hj) as (F1 & _ & _). rewrite E1, F1, E3. destruct (Nat.eqb i j); [reflexivity|]. apply SC.
    - f_equal. unfold dot. rewrite (QS (q_corr nx N s2 X2 x)). apply rsum_ext. intros i Hi. f_equal. unfold q_corr. rewrite (proj1 (proj2 EX i Hi)). apply SC. }
  rewrite <- E. unfold q_mse. apply M2. intros j Hj.
  assert (P : polynomial po nx (fun z => rsum (n_regr po nx) (fun l => (if Nat.eqb l j then 1 else 0) * fvec po nx (xq N X2 z) l))) by apply span_polynomial.
  destruct (p_span nx n po X _ P) as (c & H).
  assert (H' : forall z, fvec po nx (q_std N X2 z) j = rsum (n_regr po nx) (fun l => c l * fvec po nx (q_std n X z) l)).
  { intros z. change (fvec po nx (xq N X2 z) j = rsum (n_regr po nx) (fun l => c l * fvec po nx (xq n X z) l)). rewrite <- (H z). rewrite (rsum_ext _ _ (fun l => if Nat.eqb l j then fvec po nx (xq N X2 z) l else 0)) by (intros l _; destruct (Nat.eqb l j); ring). rewrite (rsum_single _ (fun l => fvec po nx (xq N X2 z) l) j Hj). reflexivity. }
  unfold d_trend, q_trend. rewrite (rsum_ext N _ (fun i => we i * (fun z => fvec po nx (q_std N X2 z) j) (X2 i))) by (intros; ring).
  rewrite (QX (fun z => fvec po nx (q_std N X2 z) j)).
  rewrite H'. rewrite (rsum_ext n _ (fun i => rsum (n_regr po nx) (fun l => c l * (d_trend nx n po X i l * w i)))) by (intros i _; rewrite H', <- rsum_scal_l; apply rsum_ext; intros; unfold d_trend; ring).
  rewrite rsum_swap. apply rsum_ext. intros l Hl. rewrite rsum_scal_l. f_equal. exact (U l Hl).
Qed.
End More2.
