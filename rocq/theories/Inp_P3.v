(** Kriging trained on the data with the input variables in another order. *)
From Coq Require Import Reals Arith Bool List Lia Lra FunctionalExtensionality.
From Verif Require Import RSum Mat Tri_M Tri_P Kernels_M Krg_M Krg_S Krg_P Krg_P2 Krg_P3 Krg_P5 Het_S Het_P4 Order_S Order_P1 Order_P2 Order_P3 Order_P4 Trend_T Inp_S Inp_P1 Inp_P2.
Import ListNotations.
Open Scope list_scope.
Open Scope R_scope.
Section K.
Variables (nx nt : nat) (po : poly) (s : kspec) (nugget : R) (noise : vec) (X : nat -> vec) (y : vec) (f : nat -> nat).
Hypothesis RO : reorder nx f.
Let X' : nat -> vec := fun i => swap_in f (X i).
Let s' : kspec := swap_k f s.
Let g : nat -> nat := mperm nx f po.
Let p := n_regr po nx.
Let RG : reorder p g := mperm_reorder nx f RO po.
Lemma w_Xn i : Xnorm nt X' i = swap_in f (Xnorm nt X i).
Proof. reflexivity. Qed.
Lemma w_R i j : (i < nt)%nat -> (j < nt)%nat -> corr_matrix s' nx nt (Xnorm nt X') nugget noise i j = corr_matrix s nx nt (Xnorm nt X) nugget noise i j.
Proof. intros Hi Hj. rewrite !corr_matrix_spec by assumption. rewrite !w_Xn. unfold s'. rewrite (kf_swap nx f RO). reflexivity. Qed.
Lemma w_F i j : (j < p)%nat -> fvec po nx (Xnorm nt X' i) j = fvec po nx (Xnorm nt X i) (g j).
Proof. intros Hj. rewrite w_Xn. apply (fvec_swap nx f RO). exact Hj. Qed.
Section Con.
Variables (qr : nat -> nat -> mat -> mat * mat) (rcond : nat -> mat -> R) (condF : nat -> nat -> mat -> R).
Hypotheses (HQ : qr_contract qr) (HR : rcond_contract rcond) (HG : rcond_cols rcond) (HC : cond_cols condF).
Lemma w_outcome dof : (n_regr po nx <= nt)%nat -> same_outcome_cols (n_regr po nx) g
  (reduced_likelihood qr rcond condF nt (n_regr po nx) dof (corr_matrix s nx nt (Xnorm nt X) nugget noise) (fun i j => fvec po nx (Xnorm nt X i) j) (ynorm nt y) (scale1 nt y))
  (reduced_likelihood qr rcond condF nt (n_regr po nx) dof (corr_matrix s' nx nt (Xnorm nt X') nugget noise) (fun i j => fvec po nx (Xnorm nt X' i) j) (ynorm nt y) (scale1 nt y)).
Proof.
  intros Hp. apply (i_outcome qr rcond condF HQ HR HG HC nt (n_regr po nx) g dof (scale1 nt y)).
  - exact Hp.
  - exact RG.
  - apply corr_matrix_sym.
  - exact w_R.
  - intros i j Hi Hj. apply w_F. exact Hj.
  - intros i Hi. reflexivity.
Qed.
Lemma w_trains m : krg_train qr rcond condF nx nt po s nugget noise X y = Some m -> exists m', krg_train qr rcond condF nx nt po s' nugget noise X' y = Some m'.
Proof.
  unfold krg_train. cbv zeta. intros E. destruct (Nat.leb nt 1); [discriminate|]. destruct (Nat.ltb_spec nt (n_regr po nx)) as [|Hp]; [discriminate|].
  pose proof (w_outcome (INR nt) Hp) as SO. destruct (reduced_likelihood _ _ _ _ _ _ (corr_matrix s nx nt (Xnorm nt X) nugget noise) _ _ _); try discriminate.
  destruct (reduced_likelihood _ _ _ _ _ _ (corr_matrix s' nx nt (Xnorm nt X') nugget noise) _ _ _); try contradiction. eexists. reflexivity.
Qed.
End Con.
Section Models.
Variables (m m' : model).
Hypotheses (T : trained nx nt po s nugget noise X y m) (T' : trained nx nt po s' nugget noise X' y m').
Let O := t_fit _ _ _ _ _ _ _ _ _ T.
Let O' := t_fit _ _ _ _ _ _ _ _ _ T'.
Let Sy := corr_matrix_sym s nx nt (Xnorm nt X) nugget noise.
Let HF : forall i j, (i < nt)%nat -> (j < p)%nat -> Fmat po nx nt X' i j = Fmat po nx nt X i (g j).
Proof. intros i j Hi Hj. unfold Fmat. apply w_F. exact Hj. Qed.
Let HY : forall i, (i < nt)%nat -> ynorm nt y i = ynorm nt y i.
Proof. intros i Hi. reflexivity. Qed.
Lemma w_beta j : (j < p)%nat -> p_beta (m_par m') j = p_beta (m_par m) (g j).
Proof. exact (i_beta nt p g _ _ _ _ _ _ _ _ RG Sy w_R HF HY O O' j). Qed.
Lemma w_gamma i : (i < nt)%nat -> p_gamma (m_par m') i = p_gamma (m_par m) i.
Proof. exact (i_gamma nt p g _ _ _ _ _ _ _ _ RG Sy w_R HF HY O O' i). Qed.
Lemma w_s2 : p_sigma2 (m_par m') = p_sigma2 (m_par m).
Proof.
  rewrite (t_s2 _ _ _ _ _ _ _ _ _ T), (t_s2 _ _ _ _ _ _ _ _ _ T'). rewrite (i_rho nt (n_regr po nx) g _ _ _ _ _ _ _ _ RG Sy w_R HF HY O O'). reflexivity.
Qed.
Let M : m = {| m_nx := nx; m_nt := nt; m_poly := po; m_k := s; m_Xn := Xnorm nt X; m_off := (fun c => mean nt (fun a => X a c)); m_scale := (fun c => scale1 nt (fun a => X a c)); m_ymean := mean nt y; m_ystd := scale1 nt y; m_par := m_par m |}.
Proof. exact (t_m _ _ _ _ _ _ _ _ _ T). Qed.
Let M' : m' = {| m_nx := nx; m_nt := nt; m_poly := po; m_k := s'; m_Xn := Xnorm nt X'; m_off := (fun c => mean nt (fun a => X' a c)); m_scale := (fun c => scale1 nt (fun a => X' a c)); m_ymean := mean nt y; m_ystd := scale1 nt y; m_par := m_par m' |}.
Proof. exact (t_m _ _ _ _ _ _ _ _ _ T'). Qed.
Lemma w_xn x : xn m' (swap_in f x) = swap_in f (xn m x).
Proof. rewrite M, M'. reflexivity. Qed.
Lemma w_r x i : rvec m' (swap_in f x) i = rvec m x i.
Proof. unfold rvec. rewrite w_xn. rewrite M, M'. cbn [m_k m_nx m_Xn]. rewrite w_Xn. apply (kf_swap nx f RO). Qed.
Lemma w_dot (a b : vec) : dot p (fun j => a (g j)) (fun j => b (g j)) = dot p a b.
Proof. apply (rsum_reorder p g (fun j => a j * b j) RG). Qed.
Lemma w_value x : predict_value m' (swap_in f x) = predict_value m x.
Proof.
  unfold predict_value. cbv zeta. rewrite w_xn. assert (E1 : m_nx m' = nx /\ m_nt m' = nt /\ m_poly m' = po /\ m_ymean m' = mean nt y /\ m_ystd m' = scale1 nt y) by (rewrite M'; repeat split).
  assert (E2 : m_nx m = nx /\ m_nt m = nt /\ m_poly m = po /\ m_ymean m = mean nt y /\ m_ystd m = scale1 nt y) by (rewrite M; repeat split).
  destruct E1 as (-> & -> & -> & -> & ->). destruct E2 as (-> & -> & -> & -> & ->). f_equal. f_equal. f_equal.
  - fold p. rewrite <- (w_dot (fvec po nx (xn m x)) (p_beta (m_par m))). apply dot_ext; [|exact w_beta]. intros j Hj. apply (fvec_swap nx f RO). exact Hj.
  - apply dot_ext; [intros i Hi; apply w_r|exact w_gamma].
Qed.
Lemma w_df j kx : (j < p)%nat -> (kx < nx)%nat -> df po j kx = df po (g j) (f kx).
Proof.
  intros Hj Hk. unfold df, g. destruct po eqn:Po; try reflexivity. f_equal. unfold p in Hj. cbn [n_regr] in Hj.
  assert (G1 : mperm nx f PLinear (kx + 1) = (f kx + 1)%nat).
  { pose proof (proj1 RO kx Hk) as Hf. apply (proj1 (NoDup_nth (monos PLinear nx) M1) (monos_nodup PLinear nx)).
    - rewrite monos_length. apply (mperm_reorder nx f RO PLinear). cbn. lia.
    - rewrite monos_length. cbn. lia.
    - assert (N : forall k, (k < nx)%nat -> nth (k + 1) (monos PLinear nx) M1 = MX k).
      { intros k Lk. cbn [monos]. rewrite Nat.add_1_r. cbn [nth]. rewrite (nth_indep _ M1 (MX 0)) by (rewrite map_length, seq_length; exact Lk). rewrite (map_nth MX). rewrite seq_nth by exact Lk. reflexivity. }
      unfold mperm. rewrite (N kx Hk). cbn [act]. rewrite pos_nth; [symmetry; apply N; exact Hf|]. rewrite monos_in. split; [discriminate|exact Hf]. }
  rewrite <- G1. destruct (Nat.eqb_spec j (kx + 1)) as [-> |N]; [rewrite Nat.eqb_refl; reflexivity|]. destruct (Nat.eqb_spec (mperm nx f PLinear j) (mperm nx f PLinear (kx + 1))) as [E|_]; [|reflexivity].
  exfalso. apply N. apply (mperm_reorder nx f RO PLinear); [cbn [n_regr]; lia|cbn [n_regr]; lia|exact E].
Qed.
Lemma w_deriv x kx : (kx < nx)%nat -> predict_derivative m' (swap_in f x) kx = predict_derivative m x (f kx).
Proof.
  intros Hk. unfold predict_derivative. cbv zeta. rewrite w_xn.
  assert (E1 : m_nx m' = nx /\ m_nt m' = nt /\ m_poly m' = po /\ m_k m' = s' /\ m_ystd m' = scale1 nt y /\ m_scale m' kx = m_scale m (f kx)) by (rewrite M', M; repeat split).
  assert (E2 : m_nx m = nx /\ m_nt m = nt /\ m_poly m = po /\ m_k m = s /\ m_ystd m = scale1 nt y) by (rewrite M; repeat split).
  destruct E1 as (-> & -> & -> & -> & -> & ->). destruct E2 as (-> & -> & -> & -> & ->).
  fold p. assert (EB : dot p (fun j => match df po j kx with Some v => v | None => 0 end) (p_beta (m_par m')) = dot p (fun j => match df po j (f kx) with Some v => v | None => 0 end) (p_beta (m_par m))).
  { rewrite <- (w_dot (fun j => match df po j (f kx) with Some v => v | None => 0 end) (p_beta (m_par m))). apply dot_ext; [|exact w_beta]. intros j Hj. rewrite w_df by assumption. reflexivity. }
  assert (EG : dot nt (fun i => (swap_in f (xn m x) kx - m_Xn m' i kx) * rvec m' (swap_in f x) i) (p_gamma (m_par m')) = dot nt (fun i => (xn m x (f kx) - m_Xn m i (f kx)) * rvec m x i) (p_gamma (m_par m))).
  { apply dot_ext; [|exact w_gamma]. intros i Hi. rewrite w_r. assert (EX : m_Xn m' i kx = m_Xn m i (f kx)) by (rewrite M', M; reflexivity). rewrite EX. reflexivity. }
  rewrite EG. unfold s'. rewrite kcorr_swap, eff_swap. unfold p in EB. clear - EB. destruct (k_corr s); try reflexivity. destruct po; try reflexivity; rewrite EB; reflexivity.
Qed.
Lemma id_reorder n : reorder n (fun i => i).
Proof. split; [intros i H; exact H|intros i j _ _ E; exact E]. Qed.
Lemma w_two b b' c c' : (forall i, (i < nt)%nat -> b' i = b i) -> (forall i, (i < nt)%nat -> c' i = c i) ->
  dot nt (fsub (p_C (m_par m')) b' nt) (fsub (p_C (m_par m')) c' nt) = dot nt (fsub (p_C (m_par m)) b nt) (fsub (p_C (m_par m)) c nt).
Proof. apply (two_dot nt (fun i => i) _ _ _ _ (id_reorder nt) Sy w_R (fo_C _ _ _ _ _ _ O) (fo_C _ _ _ _ _ _ O')). Qed.
Lemma w_rtrt x : dot nt (rt m' (swap_in f x)) (rt m' (swap_in f x)) = dot nt (rt m x) (rt m x).
Proof.
  unfold rt. assert (E : m_nt m' = nt /\ m_nt m = nt) by (rewrite M', M; split; reflexivity). destruct E as [-> ->]. unfold solve_triangular. apply w_two; intros i Hi; apply w_r.
Qed.
Lemma w_u x j : (j < p)%nat -> u_rhs m' (swap_in f x) j = u_rhs m x (g j).
Proof.
  intros Hj. unfold u_rhs. rewrite w_xn. assert (E : m_nt m' = nt /\ m_nt m = nt /\ m_poly m' = po /\ m_poly m = po /\ m_nx m' = nx /\ m_nx m = nx) by (rewrite M', M; repeat split). destruct E as (-> & -> & -> & -> & -> & ->).
  rewrite (fvec_swap nx f RO po _ j Hj). fold g. f_equal.
  change (dot nt (fun a => p_Ft (m_par m') a j) (rt m' (swap_in f x)) = dot nt (fun a => p_Ft (m_par m) a (g j)) (rt m x)).
  rewrite (dot_ext nt _ _ _ _ (fun a Ha => Ft_fsub nt p _ _ _ (m_par m) (g j) a O Ha) (fun a _ => eq_refl (rt m x a))).
  rewrite (dot_ext nt _ _ _ _ (fun a Ha => Ft_fsub nt p _ _ _ (m_par m') j a O' Ha) (fun a _ => eq_refl (rt m' (swap_in f x) a))).
  unfold rt. assert (E : m_nt m' = nt /\ m_nt m = nt) by (rewrite M', M; split; reflexivity). destruct E as [-> ->]. unfold solve_triangular.
  apply w_two; intros i Hi; [apply HF; assumption|apply w_r].
Qed.
(** Gram matrix of the triangular factor *)
Lemma w_gram i j : (i < p)%nat -> (j < p)%nat -> rsum p (fun k => p_G (m_par m') k i * p_G (m_par m') k j) = rsum p (fun k => p_G (m_par m) k (g i) * p_G (m_par m) k (g j)).
Proof.
  intros Hi Hj. pose proof (proj1 RG i Hi) as Gi. pose proof (proj1 RG j Hj) as Gj.
  assert (K : forall r A Fm z a b, fit_ok nt p A Fm z r -> (a < p)%nat -> (b < p)%nat -> rsum p (fun k => p_G r k a * p_G r k b) = dot nt (fsub (p_C r) (fun i => Fm i a) nt) (fsub (p_C r) (fun i => Fm i b) nt)).
  { intros r A Fm z a b Or Ha Hb. rewrite (qr_gram nt p (p_Ft r) (p_Q r) (p_G r) (fo_Q _ _ _ _ _ _ Or) (fo_QG _ _ _ _ _ _ Or) a b Ha Hb). apply dot_ext; intros i0 Hi0; apply (Ft_fsub nt p _ _ _ r _ _ Or Hi0). }
  rewrite (K _ _ _ _ i j O' Hi Hj), (K _ _ _ _ (g i) (g j) O Gi Gj). apply w_two; intros k Hk; apply HF; assumption.
Qed.
Lemma w_diag_u mm x : upper p (p_G (m_par mm)) -> dot p (solve_triangular p (tr (p_G (m_par mm))) (u_rhs mm x) false) (solve_triangular p (tr (p_G (m_par mm))) (u_rhs mm x) false) = rsum p (fun j => u_rhs mm x j ^ 2 / p_G (m_par mm) j j ^ 2).
Proof.
  intros Up. unfold dot. apply rsum_ext. intros j Hj. unfold solve_triangular. rewrite (diag_bsub 0%nat po); [|right; exact I|lia| |lia].
  - unfold Rdiv. rewrite <- (pow_inv (p_G (m_par mm) j j) 2). ring.
  - intros a c Ha Hc. exact (Up c a Hc Ha).
Qed.
Lemma w_variance x : po = PConstant -> predict_variance m' (swap_in f x) = predict_variance m x.
Proof.
  intros Po. unfold predict_variance. cbv zeta. assert (E : m_nt m' = nt /\ m_nt m = nt /\ m_poly m' = po /\ m_poly m = po /\ m_nx m' = nx /\ m_nx m = nx) by (rewrite M', M; repeat split). destruct E as (-> & -> & -> & -> & -> & ->).
  rewrite w_s2, w_rtrt. fold p. rewrite (w_diag_u m x (fo_G _ _ _ _ _ _ O)), (w_diag_u m' (swap_in f x) (fo_G _ _ _ _ _ _ O')).
  assert (P1 : p = 1%nat) by (unfold p; rewrite Po; reflexivity). assert (G0 : g 0%nat = 0%nat) by (pose proof (proj1 RG 0%nat ltac:(lia)); lia).
  assert (EE : rsum p (fun j => u_rhs m' (swap_in f x) j ^ 2 / p_G (m_par m') j j ^ 2) = rsum p (fun j => u_rhs m x j ^ 2 / p_G (m_par m) j j ^ 2)).
  { pose proof (w_gram 0%nat 0%nat ltac:(lia) ltac:(lia)) as W. pose proof (w_u x 0%nat ltac:(lia)) as U. rewrite G0 in W, U. rewrite P1 in *. cbn [rsum] in *. rewrite U. f_equal. f_equal. lra. }
  rewrite EE. reflexivity.
Qed.
Lemma w_inv b b' c c' : (forall i, (i < nt)%nat -> b' i = b i) -> (forall i, (i < nt)%nat -> c' i = c i) ->
  dot nt c' (solve_triangular nt (tr (p_C (m_par m'))) (solve_triangular nt (p_C (m_par m')) b' true) false) = dot nt c (solve_triangular nt (tr (p_C (m_par m))) (solve_triangular nt (p_C (m_par m)) b true) false).
Proof.
  intros Hb Hc. rewrite (inv_dot nt _ _ b c Sy (fo_C _ _ _ _ _ _ O)), (inv_dot nt _ _ b' c' (corr_matrix_sym _ _ _ _ _ _) (fo_C _ _ _ _ _ _ O')). apply w_two; assumption.
Qed.
(** quadratic form with the inverse of a reordered matrix *)
Lemma chol_swap (q : nat) (h : nat -> nat) (B B' : mat) : reorder q h -> msym q B -> (forall i j, (i < q)%nat -> (j < q)%nat -> B' i j = B (h i) (h j)) ->
  (cholesky q B = None <-> cholesky q B' = None) /\
  forall C C' (a a' d d' : vec), cholesky q B = Some C -> cholesky q B' = Some C' -> (forall j, (j < q)%nat -> a' j = a (h j)) -> (forall j, (j < q)%nat -> d' j = d (h j)) ->
    dot q d' (solve_triangular q (tr C') (solve_triangular q C' a' true) false) = dot q d (solve_triangular q (tr C) (solve_triangular q C a true) false).
Proof.
  intros Rh Sb EB. assert (Sb' : msym q B') by (intros i j Hi Hj; rewrite !EB by assumption; apply Sb; apply Rh; assumption). split.
  - destruct (reorder_inv q h Rh) as (k & Rk & HK & KH).
    assert (I1 : mpd q B -> mpd q B') by (apply (pd_reorder q h B B' Rh EB)).
    assert (I2 : mpd q B' -> mpd q B). { apply (pd_reorder q k B' B Rk). intros i j Hi Hj. rewrite EB by (apply Rk; assumption). rewrite !HK by assumption. reflexivity. }
    split; intros N.
    + destruct (cholesky q B') as [C'|] eqn:E; [|reflexivity]. exfalso. destruct (chol_complete q B Sb (I2 (chol_pd q B' C' Sb' (chol_sound _ _ _ E)))) as [L EL]. congruence.
    + destruct (cholesky q B) as [C|] eqn:E; [|reflexivity]. exfalso. destruct (chol_complete q B' Sb' (I1 (chol_pd q B C Sb (chol_sound _ _ _ E)))) as [L EL]. congruence.
  - intros C C' a a' d d' E E' Ha Hd. rewrite (inv_dot q B C a d Sb (chol_sound _ _ _ E)), (inv_dot q B' C' a' d' Sb' (chol_sound _ _ _ E')).
    apply (two_dot q h B B' C C' Rh Sb EB (chol_sound _ _ _ E) (chol_sound _ _ _ E')); assumption.
Qed.
Lemma w_vderiv x kx : (kx < nx)%nat -> predict_variance_derivative m' (swap_in f x) kx = predict_variance_derivative m x (f kx).
Proof.
  intros Hk. unfold predict_variance_derivative. cbv zeta. rewrite w_xn. assert (E : m_nt m' = nt /\ m_nt m = nt /\ m_poly m' = po /\ m_poly m = po /\ m_nx m' = nx /\ m_nx m = nx /\ m_k m' = s' /\ m_k m = s /\ m_scale m' kx = m_scale m (f kx)) by (rewrite M', M; repeat split). destruct E as (-> & -> & -> & -> & -> & -> & -> & -> & ->).
  set (dd' := fun i => kd_dx s' nx (fun j => swap_in f (xn m x) j - m_Xn m' i j) kx). set (dd := fun i => kd_dx s nx (fun j => xn m x j - m_Xn m i j) (f kx)).
  assert (XE : forall i, m_Xn m' i = swap_in f (m_Xn m i)) by (intros i; rewrite M', M; reflexivity).
  assert (DD : forall i, dd' i = dd i). { intros i. unfold dd', dd. rewrite XE. exact (kd_dx_swap nx f RO s (fun j => xn m x j - m_Xn m i j) kx Hk). }
  set (dr' := fun i => match dd' i with Some v => v | None => 0 end). set (dr := fun i => match dd i with Some v => v | None => 0 end).
  assert (DR : forall i, (i < nt)%nat -> dr' i = dr i) by (intros i _; unfold dr', dr; rewrite DD; reflexivity).
  assert (RR : forall i, (i < nt)%nat -> rvec m' (swap_in f x) i = rvec m x i) by (intros i _; apply w_r).
  assert (FX : forall j i, (j < p)%nat -> (i < nt)%nat -> fvec po nx (m_Xn m' i) j = fvec po nx (m_Xn m i) (g j)). { intros j i Hj _. rewrite XE. apply (fvec_swap nx f RO). exact Hj. }
  fold p.
  set (K' := fun j => solve_triangular nt (tr (p_C (m_par m'))) (solve_triangular nt (p_C (m_par m')) (fun i => fvec po nx (m_Xn m' i) j) true) false).
  set (K := fun j => solve_triangular nt (tr (p_C (m_par m))) (solve_triangular nt (p_C (m_par m)) (fun i => fvec po nx (m_Xn m i) j) true) false).
  set (z' := solve_triangular nt (tr (p_C (m_par m'))) (solve_triangular nt (p_C (m_par m')) (rvec m' (swap_in f x)) true) false).
  set (z := solve_triangular nt (tr (p_C (m_par m))) (solve_triangular nt (p_C (m_par m)) (rvec m x) true) false).
  assert (E1 : dot nt dr' z' = dot nt dr z) by (apply w_inv; assumption).
  assert (E2 : forall j, (j < p)%nat -> dot nt (rvec m' (swap_in f x)) (K' j) = dot nt (rvec m x) (K (g j))) by (intros j Hj; apply w_inv; [intros i Hi; apply FX; assumption|exact RR]).
  assert (E3 : forall j, (j < p)%nat -> dot nt dr' (K' j) = dot nt dr (K (g j))) by (intros j Hj; apply w_inv; [intros i Hi; apply FX; assumption|exact DR]).
  set (B' := fun j l => rsum nt (fun i => fvec po nx (m_Xn m' i) j * K' l i)). set (B := fun j l => rsum nt (fun i => fvec po nx (m_Xn m i) j * K l i)).
  assert (E4 : forall j l, (j < p)%nat -> (l < p)%nat -> B' j l = B (g j) (g l)) by (intros j l Hj Hl; apply (w_inv (fun i => fvec po nx (m_Xn m i) (g l)) _ (fun i => fvec po nx (m_Xn m i) (g j))); intros i Hi; apply FX; assumption).
  assert (SB : msym p B).
  { intros j l Hj Hl. change (dot nt (fun i => fvec po nx (m_Xn m i) j) (K l) = dot nt (fun i => fvec po nx (m_Xn m i) l) (K j)). unfold K. rewrite !(inv_dot nt _ _ _ _ Sy (fo_C _ _ _ _ _ _ O)). apply dot_sym. }
  destruct (chol_swap p g B B' RG SB E4) as [CN CS].
  set (A' := fun j => fvec po nx (swap_in f (xn m x)) j - dot nt (rvec m' (swap_in f x)) (K' j)). set (A := fun j => fvec po nx (xn m x) j - dot nt (rvec m x) (K j)).
  assert (E6 : forall j, (j < p)%nat -> A' j = A (g j)) by (intros j Hj; unfold A', A; rewrite E2 by exact Hj; rewrite (fvec_swap nx f RO po _ j Hj); reflexivity).
  set (dA' := fun j => match df po j kx with Some v => v | None => 0 end - dot nt dr' (K' j)). set (dA := fun j => match df po j (f kx) with Some v => v | None => 0 end - dot nt dr (K j)).
  assert (E7 : forall j, (j < p)%nat -> dA' j = dA (g j)) by (intros j Hj; unfold dA', dA; rewrite E3 by exact Hj; rewrite w_df by assumption; reflexivity).
  pose (vd := fun (d0 : option R) (p1 p2 : R) (B : mat) (A dA : vec) (s2 : R) => match d0, po with None, _ => None | _, PQuadratic => None | _, _ =>
    match cholesky p B with None => None | Some rho3 => let D := solve_triangular p (tr rho3) (solve_triangular p rho3 A true) false in Some (s2 * (- p1 - p2 + dot p dA D + dot p D dA) / m_scale m (f kx)) end end).
  change (vd (dd' 0%nat) (dot nt dr' z') (dot nt z' dr') B' A' dA' (p_sigma2 (m_par m')) = vd (dd 0%nat) (dot nt dr z) (dot nt z dr) B A dA (p_sigma2 (m_par m))).
  rewrite (dot_sym nt z' dr'), (dot_sym nt z dr), E1, w_s2, (DD 0%nat). unfold vd.
  destruct (dd 0%nat); [|reflexivity].
  destruct (cholesky p B) as [C|] eqn:EC; destruct (cholesky p B') as [C'|] eqn:EC'.
  - specialize (CS C C' A A' dA dA' eq_refl eq_refl E6 E7). set (D' := solve_triangular p (tr C') _ false) in *. set (D := solve_triangular p (tr C) _ false) in *.
    cbv zeta. fold D' D. rewrite (dot_sym p D' dA'), (dot_sym p D dA), CS. reflexivity.
  - exfalso. pose proof (proj2 CN eq_refl). discriminate.
  - exfalso. pose proof (proj1 CN eq_refl). discriminate.
  - reflexivity.
Qed.
End Models.
End K.
