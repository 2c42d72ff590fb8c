(** Proofs for C122: one more observation. *)
From Coq Require Import Reals Arith Bool List Lia Lra FunctionalExtensionality.
From Verif Require Import RSum Mat Tri_M Tri_P Kernels_M Krg_M Krg_S Krg_P Krg_P2 Krg_P3 Krg_P4 Krg_P8 Trend_T Krg_T Krg_Qr Lin_P Add_S Add_P Add_P2 One_S.
Open Scope R_scope.
Lemma fvec_poly nx po nt X j : (j < n_regr po nx)%nat -> polynomial po nx (fun z => fvec po nx (xq nt X z) j).
Proof.
  intros Hj. replace (fun z => fvec po nx (xq nt X z) j) with (fun z => rsum (n_regr po nx) (fun l => (if Nat.eqb l j then 1 else 0) * fvec po nx (xq nt X z) l)); [apply span_polynomial|].
  extensionality z. rewrite (rsum_ext _ _ (fun l => if Nat.eqb l j then fvec po nx (xq nt X z) l else 0)) by (intros l _; destruct (Nat.eqb l j); ring). apply (rsum_single _ (fun l => fvec po nx (xq nt X z) l) j Hj).
Qed.
Lemma unb_iff nx po nt X x w : unbiased nt (n_regr po nx) (Fmat po nx nt X) (fvec po nx (xq nt X x)) w <-> forall q, polynomial po nx q -> rsum nt (fun i => w i * q (X i)) = q x.
Proof.
  split.
  - intros U q P. destruct (p_span nx nt po X q P) as (c & H).
    rewrite (rsum_ext nt _ (fun i => rsum (n_regr po nx) (fun j => c j * (Fmat po nx nt X i j * w i)))) by (intros i _; rewrite H, <- rsum_scal_l; apply rsum_ext; intros j _; change (Fmat po nx nt X i j) with (fvec po nx (xq nt X (X i)) j); ring).
    rewrite rsum_swap, H. apply rsum_ext. intros j Hj. rewrite rsum_scal_l, (U j Hj). ring.
  - intros A j Hj. rewrite <- (A _ (fvec_poly nx po nt X j Hj)). apply rsum_ext. intros i _. change (Fmat po nx nt X i j) with (fvec po nx (xq nt X (X i)) j). ring.
Qed.
Section One.
Variables (nx : nat) (po : poly) (nugget : R) (n : nat) (s s2 : kspec) (noise noise2 : vec) (X X2 : nat -> vec) (y y2 : vec) (m m2 : model).
Hypotheses (T : trained nx n po s nugget noise X y m) (T2 : trained nx (S n) po s2 nugget noise2 X2 y2 m2).
Hypotheses (EX : extends n (S n) noise X y noise2 X2 y2) (SC : same_correlation nx n s X (S n) s2 X2).
Let p := n_regr po nx.
Let k (a b : vec) : R := kf s nx (xq n X a) (xq n X b).
Let Rm := corr_matrix s nx n (Xnorm n X) nugget noise.
Let F := Fmat po nx n X.
Let xs := X2 n.
Let nn := nugget + noise2 n.
Let fx (x : vec) : vec := fvec po nx (xq n X x).
Let rx (x : vec) : vec := rq nx n s X x.
Let ws : vec := wstar n p (m_par m) (rx xs) (fx xs).
Let ga : vec := fun i => scale1 n y * p_gamma (m_par m) i.
Let O := t_fit _ _ _ _ _ _ _ _ _ T.
Let Sy := corr_matrix_sym s nx n (Xnorm n X) nugget noise.
Lemma rx_eq x i : rx x i = k x (X i). Proof. reflexivity. Qed.
Lemma k_sym a b : k a b = k b a. Proof. apply kf_sym. Qed.
Lemma mult : exists mu : vec, forall i, (i < n)%nat -> mv n Rm ws i = rx xs i - mv p F mu i.
Proof. eexists. intros i Hi. exact (Rw_eq n p Rm F (ynorm n y) (m_par m) Sy O (rx xs) (fx xs) i Hi). Qed.
Lemma ws_unbiased : unbiased n p F (fx xs) ws.
Proof. exact (proj1 (w_blup n p Rm F (ynorm n y) (m_par m) Sy O (rx xs) (fx xs))). Qed.
Let v := mse n Rm (rx xs) ws + nn.
Lemma unb_mu (mu : vec) x w : unbiased n p F (fx x) w -> dot n w (mv p F mu) = dot p (fx x) mu.
Proof.
  intros U. unfold dot, mv. rewrite (rsum_ext n _ (fun i => rsum p (fun j => mu j * (F i j * w i)))) by (intros i _; rewrite <- rsum_scal_l; apply rsum_ext; intros; ring).
  rewrite rsum_swap. apply rsum_ext. intros j Hj. rewrite rsum_scal_l, (U j Hj). ring.
Qed.
Lemma unb_poly x w q : unbiased n p F (fx x) w -> polynomial po nx q -> rsum n (fun i => w i * q (X i)) = q x.
Proof.
  intros U P. destruct (p_span nx n po X q P) as (c & H).
  assert (E : forall z, q z = dot p c (fx z)) by (intros z; rewrite H; apply rsum_ext; intros; unfold fx, p; ring).
  rewrite E, dot_sym, <- (unb_mu c x w U). unfold dot. apply rsum_ext. intros i _. f_equal. rewrite E. unfold dot, mv. apply rsum_ext. intros j _. change (F i j) with (fx (X i) j). ring.
Qed.
Section Mu.
Variable mu : vec.
Hypothesis Hmu : forall i, (i < n)%nat -> mv n Rm ws i = rx xs i - mv p F mu i.
Lemma v_eq : v = 1 + nn - dot n ws (rx xs) - dot p (fx xs) mu.
Proof.
  unfold v, mse. rewrite (dot_ext n ws _ ws _ (fun _ _ => eq_refl) Hmu), dot_minus_r, (unb_mu mu xs ws ws_unbiased). ring.
Qed.
(** covariance of the errors *)
Definition cc (x : vec) : R := k x xs - dot n ws (rx x) - dot p (fx x) mu.
Lemma cov_eq x w : unbiased n p F (fx x) w -> q_cov nx n s nugget noise X x w xs ws = cc x.
Proof.
  intros U. unfold q_cov, cc.
  assert (A : dot n w (mv n (d_corr nx n s nugget noise X) ws) = dot n w (rx xs) - dot p (fx x) mu).
  { rewrite <- (unb_mu mu x w U), <- dot_minus_r. apply dot_ext; [reflexivity|]. intros i Hi. rewrite <- (Hmu i Hi). apply mv_ext; [|reflexivity]. intros j Hj.
    unfold Rm. rewrite corr_matrix_spec by assumption. unfold d_corr, Xnorm, q_std. reflexivity. }
  rewrite A. change (q_corr nx n s X xs) with (rx xs). change (q_corr nx n s X x) with (rx x). change (kf s nx (q_std n X x) (q_std n X xs)) with (k x xs). ring.
Qed.

Let d : vec := fun i => if Nat.eqb i n then / v else - ws i / v.
Lemma d_sum q : rsum (S n) (fun i => d i * q i) = (q n - rsum n (fun i => ws i * q i)) / v.
Proof.
  cbn [rsum]. unfold d at 2. rewrite Nat.eqb_refl. rewrite (rsum_ext n _ (fun i => - / v * (ws i * q i))).
  - rewrite rsum_scal_l. unfold Rdiv. ring.
  - intros i Hi. unfold d. destruct (Nat.eqb_spec i n) as [E|_]; [lia|]. unfold Rdiv. ring.
Qed.
Lemma X_old i : (i < n)%nat -> X2 i = X i /\ y2 i = y i /\ noise2 i = noise i. Proof. exact (proj2 EX i). Qed.
Lemma d_sum_X q : rsum (S n) (fun i => d i * q (X2 i)) = (q xs - rsum n (fun i => ws i * q (X i))) / v.
Proof. rewrite (d_sum (fun i => q (X2 i))). f_equal. f_equal. apply rsum_ext. intros i Hi. rewrite (proj1 (X_old i Hi)). reflexivity. Qed.
(** v is positive *)
Lemma v_pos : 0 < v.
Proof.
  set (a := fun i : nat => if Nat.eqb i n then 1 else - ws i).
  assert (As : forall q, rsum (S n) (fun i => a i * q i) = q n - rsum n (fun i => ws i * q i)).
  { intros q. cbn [rsum]. unfold a at 2. rewrite Nat.eqb_refl. rewrite (rsum_ext n _ (fun i => - (1) * (ws i * q i))).
    - rewrite rsum_scal_l. ring.
    - intros i Hi. unfold a. destruct (Nat.eqb_spec i n) as [E|_]; [lia|]. ring. }
  pose proof (chol_pd (S n) _ _ (corr_matrix_sym s2 nx (S n) (Xnorm (S n) X2) nugget noise2) (fo_C _ _ _ _ _ _ (t_fit _ _ _ _ _ _ _ _ _ T2)) a) as P.
  assert (W : exists i, (i < S n)%nat /\ a i <> 0) by (exists n; split; [lia|]; unfold a; rewrite Nat.eqb_refl; lra).
  specialize (P W). unfold dot in P. rewrite As in P.
  assert (M : forall i, (i < S n)%nat -> mv (S n) (corr_matrix s2 nx (S n) (Xnorm (S n) X2) nugget noise2) a i = (k (X2 i) xs - rsum n (fun j => ws j * k (X2 i) (X j))) + (nugget + noise2 i) * a i).
  { intros i Hi. rewrite (R_mv nx (S n) s2 nugget noise2 X2 a i Hi). f_equal. rewrite (rsum_ext (S n) _ (fun j => a j * k (X2 i) (X2 j))) by (intros j _; f_equal; exact (SC (X2 i) (X2 j))).
    rewrite (As (fun j => k (X2 i) (X2 j))). f_equal. apply rsum_ext. intros j Hj. rewrite (proj1 (X_old j Hj)). reflexivity. }
  assert (Q : rsum n (fun i => ws i * mv (S n) (corr_matrix s2 nx (S n) (Xnorm (S n) X2) nugget noise2) a i) = dot p (fx xs) mu).
  { rewrite <- (unb_mu mu xs ws ws_unbiased). apply rsum_ext. intros i Hi. f_equal. rewrite M by lia. destruct (X_old i Hi) as (-> & _ & ->). assert (Ei : a i = - ws i) by (unfold a; destruct (Nat.eqb_spec i n); [lia|reflexivity]). rewrite Ei.
    pose proof (Hmu i Hi) as E. unfold Rm in E. rewrite (R_mv nx n s nugget noise X ws i Hi) in E. change (rx xs i) with (k xs (X i)) in E. rewrite k_sym in E.
    change (rsum n (fun j => ws j * k (X i) (X j)) + (nugget + noise i) * ws i = k (X i) xs - mv p F mu i) in E. lra. }
  rewrite Q, (M n ltac:(lia)) in P. rewrite v_eq. unfold a in P. rewrite Nat.eqb_refl in P. change (X2 n) with xs in P. assert (D : k xs xs = 1) by apply kf_diag. rewrite D in P. fold nn in P.
  change (dot n ws (rx xs)) with (rsum n (fun j => ws j * k xs (X j))). lra.
Qed.
Let e := y2 n - predict_value m xs.
Let h (x : vec) : R := trend_of nx n po X y m x - e * (dot p (fx x) mu / v).
Let a2 : vec := fun i => (if Nat.ltb i n then ga i else 0) + e * d i.
Lemma h_poly : polynomial po nx h.
Proof.
  set (vv := fun j => scale1 n y * p_beta (m_par m) j + (if Nat.eqb j 0 then mean n y else 0) - e / v * mu j).
  replace h with (fun x => rsum p (fun j => vv j * fvec po nx (xq n X x) j)); [apply span_polynomial|].
  extensionality x. unfold h. rewrite trend_span. unfold dot. fold p.
  rewrite (rsum_ext p _ (fun j => (scale1 n y * p_beta (m_par m) j + (if Nat.eqb j 0 then mean n y else 0)) * fvec po nx (xq n X x) j - e / v * (fx x j * mu j))).
  - rewrite rsum_minus, rsum_scal_l. unfold Rdiv. ring.
  - intros j _. unfold vv, fx. ring.
Qed.
Let yc : vec := fun i => if Nat.eqb i n then predict_value m xs else y2 i.
Lemma EXc : extends n (S n) noise X y noise2 X2 yc.
Proof. split; [lia|]. intros i Hi. destruct (X_old i Hi) as (A & B & C). split; [exact A|]. split; [|exact C]. unfold yc. destruct (Nat.eqb_spec i n); [lia|exact B]. Qed.
Lemma COc i : (n <= i < S n)%nat -> yc i = predict_value m (X2 i).
Proof. intros Hi. replace i with n by lia. unfold yc. rewrite Nat.eqb_refl. reflexivity. Qed.
Lemma a2_orth q : polynomial po nx q -> rsum (S n) (fun i => a2 i * q (X2 i)) = 0.
Proof.
  intros P. rewrite (rsum_ext (S n) _ (fun i => (if Nat.ltb i n then ga i else 0) * q (X2 i) + e * (d i * q (X2 i)))) by (intros i _; unfold a2; ring).
  rewrite rsum_plus, rsum_scal_l, d_sum_X, (unb_poly xs ws q ws_unbiased P).
  pose proof (ext_sum_X n (S n) noise noise2 X X2 y yc EXc ga q) as E. cbv beta in E. rewrite E. unfold ga. rewrite (gamma_orthogonal nx n po s nugget noise X y m T q P). unfold Rdiv. ring.
Qed.
Lemma a2_fits i : (i < S n)%nat -> h (X2 i) + rsum (S n) (fun j => a2 j * kf s2 nx (xq (S n) X2 (X2 i)) (xq (S n) X2 (X2 j))) + (nugget + noise2 i) * a2 i = y2 i.
Proof.
  intros Hi. pose proof v_pos as Vp.
  pose proof (ext_fits nx po nugget n (S n) s s2 noise noise2 X X2 y yc m T EXc SC COc i Hi) as E. cbv zeta beta in E. fold ga in E.
  rewrite (rsum_ext (S n) _ (fun j => (if Nat.ltb j n then ga j else 0) * kf s2 nx (xq (S n) X2 (X2 i)) (xq (S n) X2 (X2 j)) + e * (d j * k (X2 i) (X2 j)))).
  2: { intros j _. unfold a2. rewrite (SC (X2 i) (X2 j) : kf s2 nx (xq (S n) X2 (X2 i)) (xq (S n) X2 (X2 j)) = k (X2 i) (X2 j)). ring. }
  rewrite rsum_plus, rsum_scal_l, (d_sum_X (fun z => k (X2 i) z)). unfold h.
  unfold a2.
  set (SS := rsum (S n) _) in *.
  change (fun i0 : nat => scale1 n y * p_gamma (m_par m) i0) with ga in E.
  assert (G : - (dot p (fx (X2 i)) mu / v) + (k (X2 i) xs - rsum n (fun j => ws j * k (X2 i) (X j))) / v + (nugget + noise2 i) * d i = if Nat.eqb i n then 1 else 0).
  { unfold d. destruct (Nat.eqb_spec i n) as [-> |Ne].
    - change (X2 n) with xs. assert (D : k xs xs = 1) by apply kf_diag. rewrite D. fold nn. pose proof v_eq as V. change (dot n ws (rx xs)) with (rsum n (fun j => ws j * k xs (X j))) in V.
      replace (- (dot p (fx xs) mu / v) + (1 - rsum n (fun j => ws j * k xs (X j))) / v + nn * / v) with ((1 + nn - rsum n (fun j => ws j * k xs (X j)) - dot p (fx xs) mu) / v) by (field; lra).
      rewrite <- V. field. lra.
    - assert (Li : (i < n)%nat) by lia. destruct (X_old i Li) as (-> & _ & ->).
      pose proof (Hmu i Li) as Q. unfold Rm in Q. rewrite (R_mv nx n s nugget noise X ws i Li) in Q. change (rx xs i) with (k xs (X i)) in Q. rewrite k_sym in Q.
      change (rsum n (fun j => ws j * k (X i) (X j)) + (nugget + noise i) * ws i = k (X i) xs - mv p F mu i) in Q.
      assert (Fm : mv p F mu i = dot p (fx (X i)) mu) by reflexivity.
      replace (- (dot p (fx (X i)) mu / v) + (k (X i) xs - rsum n (fun j => ws j * k (X i) (X j))) / v + (nugget + noise i) * (- ws i / v))
        with ((k (X i) xs - dot p (fx (X i)) mu - (rsum n (fun j => ws j * k (X i) (X j)) + (nugget + noise i) * ws i)) / v) by (field; lra).
      rewrite Q, Fm. field. lra. }
  assert (Y : y2 i = yc i + e * (if Nat.eqb i n then 1 else 0)).
  { unfold yc, e. destruct (Nat.eqb_spec i n) as [-> |]; ring. }
  rewrite Y, <- E, <- G. change (scale1 n y * p_gamma (m_par m) i) with (ga i). set (Q1 := rsum n (fun i0 : nat => ws i0 * k (X2 i) (X i0))). change (rsum n (fun j : nat => ws j * k (X2 i) (X j))) with Q1. ring.
Qed.
Lemma one_value x : predict_value m2 x = predict_value m x + cc x / v * e.
Proof.
  rewrite (dual_value nx (S n) po s2 nugget noise2 X2 y2 m2 T2 h a2 h_poly a2_orth a2_fits x).
  rewrite (rsum_ext (S n) _ (fun j => (if Nat.ltb j n then ga j else 0) * (fun z => k x z) (X2 j) + e * (d j * k x (X2 j)))).
  2: { intros j _. unfold a2. rewrite (SC x (X2 j) : kf s2 nx (xq (S n) X2 x) (xq (S n) X2 (X2 j)) = k x (X2 j)). ring. }
  rewrite rsum_plus, rsum_scal_l, (d_sum_X (fun z => k x z)).
  pose proof (ext_sum_X n (S n) noise noise2 X X2 y yc EXc ga (fun z => k x z)) as E. cbv beta in E. rewrite E.
  rewrite (value_dual nx n po s nugget noise X y m T x). unfold h, cc. change (dot n ws (rx x)) with (rsum n (fun i => ws i * k x (X i))).
  change (rsum n (fun i => scale1 n y * p_gamma (m_par m) i * kf s nx (xq n X x) (xq n X (X i)))) with (rsum n (fun i => ga i * k x (X i))). unfold Rdiv. ring.
Qed.
Lemma one_gamma i : (i < S n)%nat -> scale1 (S n) y2 * p_gamma (m_par m2) i = a2 i.
Proof. exact (dual_gamma nx (S n) po s2 nugget noise2 X2 y2 m2 T2 h a2 h_poly a2_orth a2_fits i). Qed.

(** mean squared errors *)
Let aw (u : vec) (W : R) : vec := fun i => if Nat.eqb i n then W else u i - W * ws i.
Lemma aw_sum u W q : rsum (S n) (fun i => aw u W i * q i) = rsum n (fun i => u i * q i) + W * (q n - rsum n (fun i => ws i * q i)).
Proof.
  cbn [rsum]. unfold aw at 2. rewrite Nat.eqb_refl. rewrite (rsum_ext n _ (fun i => u i * q i - W * (ws i * q i))).
  - rewrite rsum_minus, rsum_scal_l. ring.
  - intros i Hi. unfold aw. destruct (Nat.eqb_spec i n) as [E|_]; [lia|]. ring.
Qed.
Lemma aw_sum_X u W q : rsum (S n) (fun i => aw u W i * q (X2 i)) = rsum n (fun i => u i * q (X i)) + W * (q xs - rsum n (fun i => ws i * q (X i))).
Proof.
  rewrite (aw_sum u W (fun i => q (X2 i))). rewrite (rsum_ext n (fun i => u i * q (X2 i)) (fun i => u i * q (X i))) by (intros i Hi; rewrite (proj1 (X_old i Hi)); reflexivity).
  rewrite (rsum_ext n (fun i => ws i * q (X2 i)) (fun i => ws i * q (X i))) by (intros i Hi; rewrite (proj1 (X_old i Hi)); reflexivity). reflexivity.
Qed.
Lemma aw_unbiased u W x : unbiased n p F (fx x) u <-> unbiased (S n) (n_regr po nx) (Fmat po nx (S n) X2) (fvec po nx (xq (S n) X2 x)) (aw u W).
Proof.
  unfold F, fx, p. rewrite !unb_iff. split; intros A q P; specialize (A q P).
  - rewrite aw_sum_X, A, (unb_poly xs ws q ws_unbiased P). ring.
  - rewrite aw_sum_X, (unb_poly xs ws q ws_unbiased P) in A. lra.
Qed.
Let R2 := corr_matrix s2 nx (S n) (Xnorm (S n) X2) nugget noise2.
Lemma mse_aw u W x : unbiased n p F (fx x) u -> mse (S n) R2 (rq nx (S n) s2 X2 x) (aw u W) = mse n Rm (rx x) u + W ^ 2 * v - 2 * W * cc x.
Proof.
  intros U.
  assert (M : forall i, (i < S n)%nat -> mv (S n) R2 (aw u W) i = rsum n (fun j => u j * k (X2 i) (X j)) + W * (k (X2 i) xs - rsum n (fun j => ws j * k (X2 i) (X j))) + (nugget + noise2 i) * aw u W i).
  { intros i Hi. unfold R2. rewrite (R_mv nx (S n) s2 nugget noise2 X2 (aw u W) i Hi). f_equal. rewrite (rsum_ext (S n) _ (fun j => aw u W j * k (X2 i) (X2 j))) by (intros j _; f_equal; exact (SC (X2 i) (X2 j))).
    apply (aw_sum_X u W (fun z => k (X2 i) z)). }
  assert (Mo : forall i, (i < n)%nat -> mv (S n) R2 (aw u W) i = mv n Rm u i + W * mv p F mu i).
  { intros i Hi. rewrite M by lia. destruct (X_old i Hi) as (-> & _ & ->). assert (Ei : aw u W i = u i - W * ws i) by (unfold aw; destruct (Nat.eqb_spec i n); [lia|reflexivity]). rewrite Ei.
    pose proof (Hmu i Hi) as E. unfold Rm in *. rewrite (R_mv nx n s nugget noise X ws i Hi) in E. change (rx xs i) with (k xs (X i)) in E. rewrite k_sym in E.
    change (rsum n (fun j => ws j * k (X i) (X j)) + (nugget + noise i) * ws i = k (X i) xs - mv p F mu i) in E.
    rewrite (R_mv nx n s nugget noise X u i Hi). change (rsum n (fun j => u j * kf s nx (xq n X (X i)) (xq n X (X j)))) with (rsum n (fun j => u j * k (X i) (X j))).
    replace (mv p F mu i) with (k (X i) xs - (rsum n (fun j => ws j * k (X i) (X j)) + (nugget + noise i) * ws i)) by lra. ring. }
  assert (A : dot (S n) (aw u W) (mv (S n) R2 (aw u W)) = dot n u (mv n Rm u) + 2 * W * dot p (fx x) mu + W ^ 2 * v).
  { unfold dot at 1. rewrite (aw_sum u W).
    assert (B : forall z : vec, rsum n (fun i => z i * mv (S n) R2 (aw u W) i) = dot n z (mv n Rm u) + W * dot n z (mv p F mu)).
    { intros z. unfold dot. rewrite <- rsum_scal_l, <- rsum_plus. apply rsum_ext. intros i Hi. rewrite Mo by exact Hi. ring. }
    rewrite !B, (unb_mu mu x u U), (unb_mu mu xs ws ws_unbiased).
    assert (C : dot n ws (mv n Rm u) = dot n u (rx xs) - dot p (fx x) mu).
    { rewrite <- (unb_mu mu x u U), <- dot_minus_r. rewrite dot_mv_sym by exact Sy. apply dot_ext; [reflexivity|exact Hmu]. }
    rewrite C, (M n ltac:(lia)). change (X2 n) with xs. assert (D : k xs xs = 1) by apply kf_diag. rewrite D. unfold aw at 1. rewrite Nat.eqb_refl. fold nn.
    change (rsum n (fun j => u j * k xs (X j))) with (dot n u (rx xs)). change (rsum n (fun j => ws j * k xs (X j))) with (dot n ws (rx xs)). rewrite v_eq. ring. }
  unfold mse. rewrite A.
  assert (B : dot (S n) (aw u W) (rq nx (S n) s2 X2 x) = dot n u (rx x) + W * (k x xs - dot n ws (rx x))).
  { unfold dot at 1. rewrite (rsum_ext (S n) _ (fun j => aw u W j * k x (X2 j))) by (intros j _; f_equal; exact (SC x (X2 j))). apply (aw_sum_X u W (fun z => k x z)). }
  rewrite B. unfold cc. ring.
Qed.
Lemma one_mse x w w2 : blup n p Rm F (rx x) (fx x) w -> blup (S n) (n_regr po nx) R2 (Fmat po nx (S n) X2) (rq nx (S n) s2 X2 x) (fvec po nx (xq (S n) X2 x)) w2 ->
  mse (S n) R2 (rq nx (S n) s2 X2 x) w2 = mse n Rm (rx x) w - cc x ^ 2 / v.
Proof.
  intros [U M] [U2 M2]. pose proof v_pos as Vp. apply Rle_antisym.
  - eapply Rle_trans; [apply (M2 (aw w (cc x / v))); apply aw_unbiased; exact U|]. rewrite (mse_aw w (cc x / v) x U). apply Req_le. field. lra.
  - set (W := w2 n). set (u := fun i => w2 i + W * ws i).
    assert (E : forall i, (i < S n)%nat -> w2 i = aw u W i).
    { intros i Hi. unfold aw, u. destruct (Nat.eqb_spec i n) as [-> |]; [reflexivity|ring]. }
    assert (Ew : forall r : vec, mse (S n) R2 r w2 = mse (S n) R2 r (aw u W)).
    { intros r. unfold mse. rewrite (dot_ext (S n) w2 (mv (S n) R2 w2) (aw u W) (mv (S n) R2 (aw u W)) E), (dot_ext (S n) w2 r (aw u W) r E) by (intros; first [reflexivity|apply mv_ext; [reflexivity|exact E]]). reflexivity. }
    assert (Uu : unbiased n p F (fx x) u).
    { apply (aw_unbiased u W). intros j Hj. rewrite <- (U2 j Hj). apply rsum_ext. intros i Hi. rewrite E by exact Hi. reflexivity. }
    rewrite Ew, (mse_aw u W x Uu). specialize (M u Uu).
    assert (0 <= v * (W - cc x / v) ^ 2) as N by (apply Rmult_le_pos; [lra|apply pow2_ge_0]).
    replace (v * (W - cc x / v) ^ 2) with (W ^ 2 * v - 2 * W * cc x + cc x ^ 2 / v) in N by (field; lra). lra.
Qed.
(** process variance *)
Lemma one_sigma2 : p_sigma2 (m_par m2) * INR (S n) = p_sigma2 (m_par m) * INR n + e ^ 2 / v.
Proof.
  pose proof (sigma2_dual nx (S n) po s2 nugget noise2 X2 y2 m2 T2) as A. pose proof (sigma2_dual nx n po s nugget noise X y m T) as B. cbv zeta in A, B. rewrite A, B. clear A B.
  rewrite (rsum_ext (S n) _ (fun i => a2 i * y2 i - a2 i * h (X2 i))).
  2: { intros i Hi. rewrite (one_gamma i Hi). rewrite <- (a2_fits i Hi). rewrite (rsum_ext (S n) _ (fun j => a2 j * kf s2 nx (xq (S n) X2 (X2 i)) (xq (S n) X2 (X2 j)))) by (intros j Hj; rewrite (one_gamma j Hj); reflexivity). ring. }
  rewrite rsum_minus, (a2_orth h h_poly).
  rewrite (rsum_ext n _ (fun i => ga i * y i - ga i * trend_of nx n po X y m (X i))).
  2: { intros i Hi. change (scale1 n y * p_gamma (m_par m) i) with (ga i). pose proof (interp nx n po s nugget noise X y m T i Hi) as I. rewrite (value_dual nx n po s nugget noise X y m T (X i)) in I.
    set (SS := rsum n (fun i0 => scale1 n y * p_gamma (m_par m) i0 * kf s nx (xq n X (X i)) (xq n X (X i0)))) in *. unfold ga in *.
    assert (SS = y i - scale1 n y * (nugget + noise i) * p_gamma (m_par m) i - trend_of nx n po X y m (X i)) as -> by lra. ring. }
  rewrite rsum_minus. assert (G : rsum n (fun i => ga i * trend_of nx n po X y m (X i)) = 0) by exact (gamma_orthogonal nx n po s nugget noise X y m T _ (trend_polynomial nx n po X y m)). rewrite G.
  rewrite (rsum_ext (S n) _ (fun i => (if Nat.ltb i n then ga i else 0) * y2 i + e * (d i * y2 i))) by (intros i _; unfold a2; ring).
  rewrite rsum_plus, rsum_scal_l, (d_sum y2).
  pose proof (ext_sum n (S n) noise noise2 X X2 y y2 EX ga y2) as E. cbv beta in E. rewrite E.
  rewrite (rsum_ext n (fun i => ga i * y2 i) (fun i => ga i * y i)) by (intros i Hi; destruct (X_old i Hi) as (_ & -> & _); reflexivity).
  rewrite (rsum_ext n (fun i => ws i * y2 i) (fun i => ws i * y i)) by (intros i Hi; destruct (X_old i Hi) as (_ & -> & _); reflexivity).
  assert (V : predict_value m xs = rsum n (fun i => ws i * y i)).
  { destruct (mean_blup nx n po s nugget noise X y m T xs) as (w & Bw & Ev). rewrite Ev. unfold dot. apply rsum_ext. intros i Hi. f_equal.
    exact (blup_unique n p Rm F (ynorm n y) (m_par m) Sy O (rx xs) (fx xs) w Bw i Hi). }
  unfold e. rewrite V. pose proof v_pos. field. lra.
Qed.
End Mu.
End One.
