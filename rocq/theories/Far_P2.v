(** Kriging far from the data. *)
From Coq Require Import Reals Arith Bool List Lia Lra.
From Verif Require Import RSum Mat Tri_M Tri_P Kernels_M Krg_M Krg_S Krg_P Krg_P2 Krg_P3 Krg_P8 Far_S Far_P.
Import ListNotations.
Open Scope R_scope.
Lemma xq_diff nt X x i k : xq nt X x k - Xnorm nt X i k = (x k - X i k) / scale1 nt (fun a => X a k).
Proof. unfold xq, Xnorm. field. apply scale1_nz. Qed.
Lemma rq_small nx nt s X i : sees_all s nx -> small nx (fun x => rq nx nt s X x i).
Proof.
  intros H. apply small_coord. intros k Hk eps He. destruct (kf_decay s nx (Xnorm nt X i) k H Hk eps He) as (D & D1 & HD). pose proof (scale1_pos nt (fun a => X a k)) as Sp. set (sc := scale1 nt (fun a => X a k)) in *.
  exists (D * sc + Rabs (X i k)). intros x Hx. unfold rq. destruct (HD (xq nt X x)) as [P L].
  - rewrite xq_diff. fold sc. unfold Rdiv. rewrite Rabs_mult, (Rabs_pos_eq (/ sc)) by (apply Rlt_le, Rinv_0_lt_compat; exact Sp).
    apply Rmult_le_reg_r with sc; [exact Sp|]. rewrite Rmult_assoc, Rinv_l, Rmult_1_r by lra. pose proof (Rabs_triang_inv (x k) (X i k)). lra.
  - rewrite Rabs_pos_eq by lra. exact L.
Qed.
(** fsub is linear in its right-hand side *)
Lemma fsub_lin n L b i : lower n L -> diagnz n L -> (i < n)%nat -> fsub L b n i = rsum n (fun j => fsub L (fun a => if Nat.eqb a j then 1 else 0) n i * b j).
Proof.
  intros Lo Dg Hi. apply Rminus_diag_uniq.
  apply (lower_inj n L Lo Dg (fun i => fsub L b n i - rsum n (fun j => fsub L (fun a => if Nat.eqb a j then 1 else 0) n i * b j))); [|exact Hi].
  intros a Ha. rewrite mv_minus, (fsub_solves n L b Lo Dg a Ha).
  assert (E : mv n L (fun i => rsum n (fun j => fsub L (fun a => if Nat.eqb a j then 1 else 0) n i * b j)) a = rsum n (fun j => (if Nat.eqb j a then b j else 0))).
  { unfold mv. rewrite (rsum_ext n _ (fun i => rsum n (fun j => L a i * fsub L (fun a => if Nat.eqb a j then 1 else 0) n i * b j))) by (intros; rewrite <- rsum_scal_l; apply rsum_ext; intros; ring).
    rewrite rsum_swap. apply rsum_ext. intros j Hj. rewrite rsum_scal_r. pose proof (fsub_solves n L (fun a => if Nat.eqb a j then 1 else 0) Lo Dg a Ha) as F. unfold mv in F. rewrite F. rewrite (Nat.eqb_sym j a). destruct (Nat.eqb a j); ring. }
  rewrite E, rsum_single by exact Ha. ring.
Qed.
Lemma sees_ok s nx : sees_all s nx -> k_ok s nx.
Proof. destruct s as [c theta|c ncomp co theta]; cbn; [intros [A B]; split; [exact A|intros j Hj; apply Rlt_le, B; exact Hj]|intros (A & B & _); split; assumption]. Qed.
Section K.
Variables (nx nt : nat) (po : poly) (s : kspec) (nugget : R) (noise : vec) (X : nat -> vec) (y : vec) (m : model).
Hypotheses (T : trained nx nt po s nugget noise X y m) (SA : sees_all s nx).
Let p := n_regr po nx.
Let Rm := corr_matrix s nx nt (Xnorm nt X) nugget noise.
Let F := Fmat po nx nt X.
Let O : fit_ok nt p Rm F (ynorm nt y) (m_par m) := t_fit _ _ _ _ _ _ _ _ _ T.
Let S : msym nt Rm := corr_matrix_sym s nx nt (Xnorm nt X) nugget noise.
Definition braw : vec := fun j => scale1 nt y * p_beta (m_par m) j + (if Nat.eqb j 0 then mean nt y else 0).
Lemma trend_raw (f : vec) : f 0%nat = 1 -> dot p f braw = mean nt y + scale1 nt y * dot p f (p_beta (m_par m)).
Proof.
  intros H0. unfold dot, braw. rewrite (rsum_ext p _ (fun i => scale1 nt y * (f i * p_beta (m_par m) i) + (if Nat.eqb i 0 then f i * mean nt y else 0))) by (intros i _; destruct (Nat.eqb i 0); ring).
  rewrite rsum_plus, rsum_scal_l, rsum_single by apply n_regr_pos. rewrite H0. ring.
Qed.
Lemma raw_fit : gls_fit nt p (d_corr nx nt s nugget noise X) (d_trend nx nt po X) y braw.
Proof.
  exists (fun i => scale1 nt y * p_gamma (m_par m) i). split.
  - intros i Hi. rewrite mv_scal. rewrite <- (mv_ext nt Rm (d_corr nx nt s nugget noise X) (p_gamma (m_par m)) (p_gamma (m_par m)) i) by (intros; try reflexivity; apply d_corr_eq; assumption).
    rewrite (R_gamma nt p Rm F (ynorm nt y) (m_par m) S O i Hi).
    change (mv p (d_trend nx nt po X) braw i) with (dot p (fvec po nx (Xnorm nt X i)) braw). rewrite trend_raw by apply fvec_0.
    change (mv p F (p_beta (m_par m)) i) with (dot p (fvec po nx (Xnorm nt X i)) (p_beta (m_par m))). rewrite <- (ynorm_eq nt y i) at 1. ring.
  - intros j Hj. rewrite (rsum_ext nt _ (fun i => scale1 nt y * (F i j * p_gamma (m_par m) i))) by (intros; unfold d_trend, F, Fmat; change (q_std nt X (X i)) with (Xnorm nt X i); ring).
    rewrite rsum_scal_l. pose proof (F_gamma nt p Rm F (ynorm nt y) (m_par m) O (fun a => if Nat.eqb a j then 1 else 0)) as G. unfold dot in G.
    rewrite (rsum_ext nt _ (fun i => F i j * p_gamma (m_par m) i)) in G.
    2:{ intros i Hi. f_equal. unfold mv. rewrite (rsum_ext p _ (fun a => if Nat.eqb a j then F i a else 0)) by (intros a _; destruct (Nat.eqb a j); ring). apply rsum_single. exact Hj. }
    rewrite G. ring.
Qed.
Lemma value_far : limit_far nx (predict_value m) (fun x => dot p (q_trend nx nt po X x) braw).
Proof.
  apply lim_small. apply (small_ext nx (fun x => scale1 nt y * dot nt (rq nx nt s X x) (p_gamma (m_par m)))).
  - intros x. rewrite (value_eq _ _ _ _ _ _ _ _ _ T). rewrite trend_raw by apply fvec_0. change (q_trend nx nt po X x) with (fvec po nx (xq nt X x)). fold p. ring.
  - apply small_scal, small_dot. intros i _. apply rq_small. exact SA.
Qed.
Lemma rt_small i : (i < nt)%nat -> small nx (fun x => fsub (p_C (m_par m)) (rq nx nt s X x) nt i).
Proof.
  intros Hi. pose proof (fo_C _ _ _ _ _ _ O) as FC.
  apply (small_ext nx (fun x => dot nt (rq nx nt s X x) (fun j => fsub (p_C (m_par m)) (fun a => if Nat.eqb a j then 1 else 0) nt i))).
  - intros x. rewrite (fsub_lin nt (p_C (m_par m)) (rq nx nt s X x) i (chol_lower _ _ _ FC) (chol_diag _ _ _ FC) Hi). unfold dot. apply rsum_ext. intros; ring.
  - apply small_dot. intros j _. apply rq_small. exact SA.
Qed.
Lemma rt2_small : small nx (fun x => dot nt (rt m x) (rt m x)).
Proof.
  apply (small_ext nx (fun x => rsum nt (fun i => fsub (p_C (m_par m)) (rq nx nt s X x) nt i ^ 2))).
  - intros x. rewrite (rt_fsub _ _ _ _ _ _ _ _ _ T). unfold dot. apply rsum_ext. intros; ring.
  - apply (small_rsum nx nt (fun i x => fsub (p_C (m_par m)) (rq nx nt s X x) nt i ^ 2)). intros i Hi. apply small_sqr, rt_small. exact Hi.
Qed.
Definition sj (j : nat) (x : vec) : R := mv nt (tr (p_Ft (m_par m))) (fsub (p_C (m_par m)) (rq nx nt s X x) nt) j.
Lemma sj_small j : small nx (sj j).
Proof.
  apply (small_ext nx (fun x => dot nt (fsub (p_C (m_par m)) (rq nx nt s X x) nt) (fun a => p_Ft (m_par m) a j))).
  - intros x. unfold sj, mv, tr, dot. apply rsum_ext. intros; ring.
  - apply (small_dot nx nt (fun x => fsub (p_C (m_par m)) (rq nx nt s X x) nt)). intros i Hi. apply rt_small. exact Hi.
Qed.
Lemma urhs_eq x j : u_rhs m x j = sj j x - fvec po nx (xq nt X x) j.
Proof. apply (u_rhs_eq _ _ _ _ _ _ _ _ _ T). Qed.
Lemma pd : mpd nt Rm.
Proof. apply (chol_pd nt Rm _ S (fo_C _ _ _ _ _ _ O)). Qed.
(** the Gram matrix of the trend functions *)
Lemma G_gram v j : (forall i, (i < nt)%nat -> mv nt Rm v i = F i j) -> (j < p)%nat -> rsum p (fun k => p_G (m_par m) k j * p_G (m_par m) k j) = rsum nt (fun i => F i j * v i).
Proof.
  intros V Hj. set (e := fun a => if Nat.eqb a j then 1 else 0).
  assert (EG : forall k, mv p (p_G (m_par m)) e k = p_G (m_par m) k j).
  { intros k. unfold mv. rewrite (rsum_ext p _ (fun a => if Nat.eqb a j then p_G (m_par m) k a else 0)) by (intros a _; unfold e; destruct (Nat.eqb a j); ring). apply rsum_single. exact Hj. }
  assert (EF : forall i, mv p F e i = F i j).
  { intros k. unfold mv. rewrite (rsum_ext p _ (fun a => if Nat.eqb a j then F k a else 0)) by (intros a _; unfold e; destruct (Nat.eqb a j); ring). apply rsum_single. exact Hj. }
  transitivity (dot p (mv p (p_G (m_par m)) e) (mv p (p_G (m_par m)) e)); [unfold dot; apply rsum_ext; intros; rewrite !EG; reflexivity|].
  rewrite <- (Ft_form nt p Rm F (ynorm nt y) (m_par m) O e e). pose proof (fo_C _ _ _ _ _ _ O) as FC.
  assert (EV : forall i, (i < nt)%nat -> mv nt (tr (p_C (m_par m))) v i = mv p (p_Ft (m_par m)) e i).
  { intros i Hi. apply Rminus_diag_uniq. apply (lower_inj nt (p_C (m_par m)) (chol_lower _ _ _ FC) (chol_diag _ _ _ FC) (fun i => mv nt (tr (p_C (m_par m))) v i - mv p (p_Ft (m_par m)) e i)); [|exact Hi].
    intros a Ha. rewrite mv_minus. rewrite (C_F nt p Rm F (ynorm nt y) (m_par m) O e a Ha), EF. rewrite (chol_mv nt Rm _ v S FC a Ha), V by exact Ha. ring. }
  rewrite (dot_ext nt _ _ (mv nt (tr (p_C (m_par m))) v) (mv nt (tr (p_C (m_par m))) v)) by (intros; symmetry; apply EV; assumption).
  rewrite <- (chol_form nt Rm _ v S FC). rewrite dot_sym. unfold dot. apply rsum_ext. intros i Hi. rewrite V by exact Hi. reflexivity.
Qed.
Hypothesis Nn : forall i, (i < nt)%nat -> 0 <= nugget + noise i.
Lemma variance_far (v : vec) : po = PConstant -> (forall i, (i < nt)%nat -> mv nt Rm v i = 1) ->
  0 < rsum nt v /\ limit_far nx (predict_variance m) (fun _ => p_sigma2 (m_par m) * (1 + 1 / rsum nt v)).
Proof.
  intros HP V. assert (P1 : p = 1%nat) by (unfold p; rewrite HP; reflexivity).
  assert (F1 : forall i, F i 0%nat = 1) by (intros; apply fvec_0).
  assert (Gg : p_G (m_par m) 0%nat 0%nat ^ 2 = rsum nt v).
  { pose proof (G_gram v 0%nat) as G. rewrite P1 in G. cbn [rsum] in G. replace (p_G (m_par m) 0%nat 0%nat ^ 2) with (0 + p_G (m_par m) 0%nat 0%nat * p_G (m_par m) 0%nat 0%nat) by ring. rewrite G; [|intros i Hi; rewrite F1; apply V; exact Hi|lia].
    apply rsum_ext. intros; rewrite F1; ring. }
  assert (Nz : p_G (m_par m) 0%nat 0%nat <> 0) by (apply (fo_D _ _ _ _ _ _ O); lia). set (g := p_G (m_par m) 0%nat 0%nat) in *.
  assert (Pg : 0 < rsum nt v) by (rewrite <- Gg; nra). split; [exact Pg|]. apply lim_small. set (s2 := p_sigma2 (m_par m)).
  apply (small_ext nx (fun x => (- s2) * dot nt (rt m x) (rt m x) + (s2 / rsum nt v) * (sj 0 x ^ 2 + (- 2) * sj 0 x))).
  - intros x. rewrite (variance_eq _ _ _ _ _ _ _ _ _ T (sees_ok _ _ SA) Nn). fold p s2. rewrite P1. cbn [rsum]. rewrite urhs_eq, fvec_0. fold g. rewrite <- Gg. field. exact Nz.
  - apply small_plus; [apply small_scal, rt2_small|]. apply small_scal. apply small_plus; [apply small_sqr, sj_small|apply small_scal, sj_small].
Qed.
Lemma variance_far_infinite : po <> PConstant -> 0 < p_sigma2 (m_par m) -> forall B, exists D, forall x, away nx D x -> B < predict_variance m x.
Proof.
  intros HP P2 B. set (s2 := p_sigma2 (m_par m)) in *.
  assert (Lf : forall x c, (c < nx)%nat -> fvec po nx x (1 + c)%nat = x c).
  { intros x c Hc. unfold fvec. destruct po; [congruence| |]; cbn [regr].
    - cbn [Nat.add nth]. rewrite (nth_indep _ 0 (x 0%nat)) by (rewrite map_length, seq_length; exact Hc). rewrite map_nth, seq_nth by exact Hc. reflexivity.
    - assert (A : forall l f0 j, (j < length f0)%nat -> nth j (fold_left (fun f k => f ++ map (fun j => x k * x j) (seq k (nx - k))) l f0) 0 = nth j f0 0).
      { induction l as [|k l IH]; intros f0 j Hj; [reflexivity|]. cbn [fold_left]. rewrite IH by (rewrite app_length; lia). apply app_nth1. exact Hj. }
      rewrite A by (cbn [length]; rewrite map_length, seq_length; lia). cbn [Nat.add nth]. rewrite (nth_indep _ 0 (x 0%nat)) by (rewrite map_length, seq_length; exact Hc). rewrite map_nth, seq_nth by exact Hc. reflexivity. }
  assert (Cp : forall c, (c < nx)%nat -> (1 + c < p)%nat).
  { intros c Hc. unfold p. destruct po; cbn [n_regr]; [congruence|lia|]. generalize (nx * (nx + 1) / 2)%nat. intros; lia. }
  (* one coordinate *)
  assert (A : forall n, (n <= nx)%nat -> exists D, forall c, (c < n)%nat -> forall x, D <= Rabs (x c) -> B < predict_variance m x).
  { induction n as [|n IH]; intros Hn; [exists 0; intros; lia|]. destruct (IH ltac:(lia)) as [D1 HD1].
    destruct (sj_small (1 + n) 1 ltac:(lra)) as [D2 HD2].
    assert (Ng : p_G (m_par m) (1 + n)%nat (1 + n)%nat <> 0) by (apply (fo_D _ _ _ _ _ _ O); apply Cp; lia). set (g := p_G (m_par m) (1 + n)%nat (1 + n)%nat) in *.
    set (mu := mean nt (fun a => X a n)). pose proof (scale1_pos nt (fun a => X a n)) as Sp. set (sc := scale1 nt (fun a => X a n)) in *.
    set (K := 2 + (Rabs B / s2 + 1) * g ^ 2). assert (Bp : 0 <= Rabs B / s2) by (apply Rmult_le_pos; [apply Rabs_pos|apply Rlt_le, Rinv_0_lt_compat; exact P2]).
    assert (g2 : 0 < g ^ 2) by nra. assert (Kp : 2 <= K) by (unfold K; nra).
    exists (Rmax D1 (Rmax D2 (K * sc + Rabs mu))). intros c Hc x Hx. destruct (Nat.eq_dec c n) as [-> | N]; [|apply (HD1 c); [lia|]; eapply Rle_trans; [apply Rmax_l|exact Hx]].
    assert (HxD : D2 <= Rabs (x n)) by (eapply Rle_trans; [|exact Hx]; eapply Rle_trans; [|apply Rmax_r]; apply Rmax_l).
    assert (HxK : K * sc + Rabs mu <= Rabs (x n)) by (eapply Rle_trans; [|exact Hx]; eapply Rle_trans; [|apply Rmax_r]; apply Rmax_r).
    assert (Hnn : (n < nx)%nat) by lia. specialize (HD2 x (ex_intro _ n (conj Hnn HxD))). rewrite Rminus_0_r in HD2.
    assert (Xq : K <= Rabs (xq nt X x n)).
    { unfold xq. fold mu sc. unfold Rdiv. rewrite Rabs_mult, (Rabs_pos_eq (/ sc)) by (apply Rlt_le, Rinv_0_lt_compat; exact Sp). apply Rmult_le_reg_r with sc; [exact Sp|]. rewrite Rmult_assoc, Rinv_l, Rmult_1_r by lra.
      pose proof (Rabs_triang_inv (x n) mu). lra. }
    rewrite (variance_eq _ _ _ _ _ _ _ _ _ T (sees_ok _ _ SA) Nn). fold p s2. pose proof (rt_bound _ _ _ _ _ _ _ _ _ T (sees_ok _ _ SA) Nn x) as RB.
    assert (Nr : forall i, (i < p)%nat -> 0 <= (u_rhs m x i / p_G (m_par m) i i) ^ 2) by (intros; apply pow2_ge_0).
    pose proof (rsum_ge_term p _ (1 + n)%nat Nr (Cp n ltac:(lia))) as Gt. cbn beta in Gt. fold g in Gt. rewrite urhs_eq, (Lf (xq nt X x) n) in Gt by lia.
    set (u := sj (1 + n) x - xq nt X x n) in *. assert (U : K - 1 <= Rabs u). { unfold u. rewrite Rabs_minus_sym. pose proof (Rabs_triang_inv (xq nt X x n) (sj (1 + n) x)). lra. }
    assert (U2 : (Rabs B / s2 + 1) * g ^ 2 < u ^ 2). { replace (u ^ 2) with (Rabs u ^ 2) by apply pow2_abs. assert (K - 1 <= Rabs u ^ 2) by nra. unfold K in *. lra. }
    assert (U3 : Rabs B / s2 + 1 < (u / g) ^ 2). { apply Rmult_lt_reg_r with (g ^ 2); [exact g2|]. replace ((u / g) ^ 2 * g ^ 2) with (u ^ 2) by (field; exact Ng). exact U2. }
    match type of Gt with _ <= ?q => set (Q := q) in * end. assert (U4 : Rabs B / s2 < 1 - dot nt (rt m x) (rt m x) + Q) by lra.
    apply Rle_lt_trans with (Rabs B); [apply Rle_abs|]. apply Rle_lt_trans with (s2 * (Rabs B / s2)); [right; field; lra|]. apply Rmult_lt_compat_l; assumption. }
  destruct (A nx (Nat.le_refl _)) as [D HD]. exists D. intros x (c & Hc & L). exact (HD c Hc x L).
Qed.
End K.
