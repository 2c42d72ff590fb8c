(** C101: the order of the observations does not matter. *)
From Coq Require Import Reals Arith Bool List Lia Lra FunctionalExtensionality FinFun Sorted.
From Coquelicot Require Import Coquelicot.
From Verif Require Import RSum Mat Psd Psd2 Tri_M Tri_P Kernels_M Kernels_P Kernels_P2 Kernels_P3 Krg_M Krg_S Krg_P Krg_P2 Krg_P3 Krg_P4 Krg_P5 Krg_P8 Het_M Het_S Het_P1 Het_P2 Het_P3 Het_P4.
Import ListNotations.
Open Scope list_scope.
Open Scope R_scope.

Section Reorder.
Variables (nx ny n : nat) (f : nat -> nat) (X : nat -> vec) (y : nat -> vec).
Hypothesis Hf : reorder n f.
Let X' : nat -> vec := fun i => X (f i).
Let y' : nat -> vec := fun i => y (f i).
Lemma onto j : (j < n)%nat -> exists i, (i < n)%nat /\ f i = j.
Proof.
  destruct Hf as [B I]. assert (BF : bFun n f) by (intros i Hi; apply B; exact Hi). assert (BI : bInjective n f) by (intros i k Hi Hk; apply I; assumption).
  pose proof (proj1 (bInjective_bSurjective BF) BI) as BS. intros Hj. destruct (BS j Hj) as (i & Hi & E). exists i. split; assumption.
Qed.
Lemma mean_re (v : vec) : mean n (fun i => v (f i)) = mean n v. Proof. unfold mean. rewrite (rsum_reorder n f v Hf). reflexivity. Qed.
Lemma scale_re (v : vec) : scale1 n (fun i => v (f i)) = scale1 n v.
Proof. unfold scale1, std1. rewrite mean_re. rewrite (rsum_reorder n f (fun i => (v i - mean n v) ^ 2) Hf). reflexivity. Qed.
Let Xn := Xnorm n X.
Let Xn' := Xnorm n X'.
Lemma Xn_re i c : Xn' i c = Xn (f i) c.
Proof. unfold Xn, Xn', Xnorm, X'. rewrite (mean_re (fun a => X a c)), (scale_re (fun a => X a c)). reflexivity. Qed.
Lemma yn_re k i : ynorm n (fun i => y' i k) i = ynorm n (fun i => y i k) (f i).
Proof. unfold ynorm, y'. rewrite (mean_re (fun a => y a k)), (scale_re (fun a => y a k)). reflexivity. Qed.
Let l := uniq nx Xn n.
Let l' := uniq nx Xn' n.
Lemma lists : Forall2 (fun i j => same nx (Xn i) (Xn' j)) l l'.
Proof.
  apply sorted_unique; [apply uniq_sorted|apply uniq_sorted| |].
  - intros i Hi. apply uniq_in in Hi. destruct (onto i Hi) as (i0 & H0 & E). destruct (uniq_has nx Xn' n i0 H0) as (j & Hj & S). exists j. split; [exact Hj|]. intros c Hc. rewrite <- (S c Hc), Xn_re, E. reflexivity.
  - intros j Hj. apply uniq_in in Hj. destruct (uniq_has nx Xn n (f j)) as (i & Hi & S); [apply Hf; exact Hj|]. exists i. split; [exact Hi|]. intros c Hc. rewrite Xn_re. symmetry. apply S. exact Hc.
Qed.
Lemma lens : length l = length l'. Proof. pose proof lists as H. induction H as [|a b r r' _ _ IH]; [reflexivity|]. cbn [length]. rewrite IH. reflexivity. Qed.
Lemma nths u : (u < length l)%nat -> same nx (Xn (nth u l 0%nat)) (Xn' (nth u l' 0%nat)).
Proof.
  pose proof lists as H. revert u. induction H as [|a b r r' E _ IH]; intros u Hu; cbn [length] in Hu; [lia|]. destruct u as [|u]; [exact E|]. cbn [nth]. apply IH. lia.
Qed.
Lemma idx_re i : (i < n)%nat -> inverse nx Xn' n i = inverse nx Xn n (f i).
Proof.
  intros Hi. assert (Hfi : (f i < n)%nat) by (apply Hf; exact Hi). pose proof (inverse_lt nx Xn' n i Hi) as H'. fold l' in H'. rewrite <- lens in H'.
  apply (rep_inj nx Xn n); [exact H'|apply inverse_lt; exact Hfi|]. apply (same_trans nx _ (Xn' (rep nx Xn' n (inverse nx Xn' n i)))); [apply (nths _ H')|].
  apply (same_trans nx _ (Xn' i)); [apply same_sym; apply (inverse_same nx Xn' n i Hi)|]. apply (same_trans nx _ (Xn (f i))); [intros c Hc; apply Xn_re|]. apply (inverse_same nx Xn n (f i) Hfi).
Qed.
Lemma sums_re u (g g' : vec) : (forall i, (i < n)%nat -> g' i = g (f i)) -> masked_sum n (inverse nx Xn' n) u g' = masked_sum n (inverse nx Xn n) u g.
Proof.
  intros E. unfold masked_sum. rewrite <- (rsum_reorder n f (fun a => if Nat.eqb (inverse nx Xn n a) u then g a else 0) Hf). apply rsum_ext. intros i Hi. rewrite idx_re, E by exact Hi. reflexivity.
Qed.
Let yn : nat -> vec := fun a j => ynorm n (fun i => y i j) a.
Let yn' : nat -> vec := fun a j => ynorm n (fun i => y' i j) a.
Lemma count_re u : count n (inverse nx Xn' n) u = count n (inverse nx Xn n) u. Proof. apply sums_re. reflexivity. Qed.
Lemma block_re u (g g' : nat -> vec) : (forall i k, (i < n)%nat -> g' i k = g (f i) k) -> block_sum n ny (inverse nx Xn' n) u g' = block_sum n ny (inverse nx Xn n) u g.
Proof. intros E. apply (sums_re u (fun a => rsum ny (g a))). intros i Hi. apply rsum_ext. intros k _. apply E. exact Hi. Qed.
Lemma ymean_re u : y_mean_rep n ny (inverse nx Xn' n) yn' u = y_mean_rep n ny (inverse nx Xn n) yn u.
Proof. unfold y_mean_rep, block_size. rewrite count_re. f_equal. apply block_re. intros i k Hi. apply yn_re. Qed.
Lemma noise_re n0 u : noise_rep n ny (inverse nx Xn' n) yn' n0 u = noise_rep n ny (inverse nx Xn n) yn n0 u.
Proof.
  unfold noise_rep. cbv zeta. unfold block_size. rewrite ymean_re, count_re.
  assert (E : forall i k, (i < n)%nat -> yn' i k = yn (f i) k) by (intros; apply yn_re).
  rewrite (block_re u (fun a k => (yn a k - y_mean_rep n ny (inverse nx Xn n) yn u) ^ 2) (fun a k => (yn' a k - y_mean_rep n ny (inverse nx Xn n) yn u) ^ 2)) by (intros i k Hi; rewrite E by exact Hi; reflexivity).
  rewrite (block_re u (fun a k => yn a k - y_mean_rep n ny (inverse nx Xn n) yn u) (fun a k => yn' a k - y_mean_rep n ny (inverse nx Xn n) yn u)) by (intros i k Hi; rewrite E by exact Hi; reflexivity).
  set (md := block_sum n ny _ u (fun a k => yn a k - _) / _).
  rewrite (block_re u (fun a k => (yn a k - y_mean_rep n ny (inverse nx Xn n) yn u - md) ^ 2) (fun a k => (yn' a k - y_mean_rep n ny (inverse nx Xn n) yn u - md) ^ 2)) by (intros i k Hi; rewrite E by exact Hi; reflexivity).
  reflexivity.
Qed.
Variables (qr : nat -> nat -> mat -> mat * mat) (rcond : nat -> mat -> R) (condF : nat -> nat -> mat -> R).
Hypothesis HC : cond_ext condF.
Variables (po : poly) (s : kspec) (nugget : R) (noise0 : list R) (k : nat) (m : model).
Hypothesis Hm : het_train qr rcond condF nx ny n po s nugget noise0 X y k = Some m.
Lemma t_het_reorder : exists m', het_train qr rcond condF nx ny n po s nugget noise0 X' y' k = Some m' /\
  forall x, predict_value m' x = predict_value m x /\ predict_variance m' x = predict_variance m x.
Proof.
  unfold het_train in *. cbv zeta in *. change (Xnorm n X) with Xn in Hm. change (Xnorm n X') with Xn'. fold l in Hm. fold l'. rewrite <- lens. set (nt := length l) in *.
  destruct (bcast nt noise0) as [n0|]; [|discriminate]. destruct (Nat.leb nt 1); [discriminate|]. destruct (Nat.ltb nt (n_regr po nx)); [discriminate|].
  change (fun a j => ynorm n (fun i => y i j) a) with yn in Hm. change (fun a j => ynorm n (fun i => y' i j) a) with yn'.
  set (Xu := fun u => Xn (nth u l 0%nat)) in *. set (Xu' := fun u => Xn' (nth u l' 0%nat)).
  assert (EX : forall u, (u < nt)%nat -> same nx (Xu u) (Xu' u)) by (intros; apply nths; assumption).
  set (Rm := corr_matrix s nx nt Xu _ _) in Hm. set (Rm' := corr_matrix s nx nt Xu' _ _).
  assert (ER : forall i j, (i < nt)%nat -> (j < nt)%nat -> Rm i j = Rm' i j).
  { intros i j Hi Hj. unfold Rm, Rm'. rewrite !corr_matrix_spec by assumption. rewrite noise_re. destruct (Nat.eqb i j); [reflexivity|]. apply kd_ext. intros c Hc. rewrite (EX i Hi c Hc), (EX j Hj c Hc). reflexivity. }
  set (F := fun i j => fvec po nx (Xn (nth i l 0%nat)) j) in *. set (F' := fun i j => fvec po nx (Xn' (nth i l' 0%nat)) j).
  assert (EF : forall i j, (i < nt)%nat -> F i j = F' i j) by (intros i j Hi; apply fvec_ext; apply EX; exact Hi).
  rewrite (rl_ext qr rcond condF nt (n_regr po nx) (INR nt) Rm Rm' F F' (y_mean_rep n ny (inverse nx Xn n) yn) (y_mean_rep n ny (inverse nx Xn' n) yn') (scale1 n (fun i => y i k)) (scale1 n (fun i => y' i k))); [|apply scale1_nz|exact ER|exact EF|intros; symmetry; apply ymean_re|apply HC; exact EF].
  destruct (reduced_likelihood _ _ _ _ _ _ _ _ _ _) as [vv pr| |]; try discriminate. cbn [map_fit]. injection Hm as <-. eexists. split; [reflexivity|]. intros x.
  assert (Exn : (fun c => (x c - mean n (fun a => X' a c)) / scale1 n (fun a => X' a c)) = (fun c => (x c - mean n (fun a => X a c)) / scale1 n (fun a => X a c))).
  { apply functional_extensionality. intros c. unfold X'. rewrite (mean_re (fun a => X a c)), (scale_re (fun a => X a c)). reflexivity. }
  set (xs := fun c => (x c - mean n (fun a => X a c)) / scale1 n (fun a => X a c)) in *.
  assert (Er : forall u, (u < nt)%nat -> kf s nx xs (Xu' u) = kf s nx xs (Xu u)) by (intros u Hu; apply kd_ext; intros c Hc; rewrite (EX u Hu c Hc); reflexivity).
  assert (Ey1 : mean n (fun i => y' i k) = mean n (fun i => y i k)) by (apply (mean_re (fun i => y i k))). assert (Ey2 : scale1 n (fun i => y' i k) = scale1 n (fun i => y i k)) by (apply (scale_re (fun i => y i k))).
  split.
  - unfold predict_value, rvec, xn. cbn [m_nx m_nt m_poly m_k m_Xn m_off m_scale m_ymean m_ystd m_par set_s2 p_beta p_gamma]. rewrite Exn, Ey1, Ey2. fold xs. f_equal. f_equal. f_equal. apply dot_ext; [exact Er|reflexivity].
  - unfold predict_variance, rt, u_rhs, rt, rvec, xn. cbn [m_nx m_nt m_poly m_k m_Xn m_off m_scale m_ymean m_ystd m_par set_s2 p_beta p_gamma p_sigma2 p_C p_Ft p_G]. rewrite Exn, Ey2. fold xs.
    assert (Et : solve_triangular nt (p_C pr) (fun i => kf s nx xs (Xu' i)) true = solve_triangular nt (p_C pr) (fun i => kf s nx xs (Xu i)) true).
    { apply functional_extensionality. intros i. unfold solve_triangular. apply fsub_ext; [reflexivity|exact Er]. }
    rewrite Et. replace (scale1 n (fun i => y i k) ^ 2 / scale1 n (fun i => y i k) ^ 2) with 1; [rewrite Rmult_1_r; reflexivity|]. symmetry. apply Rinv_r. apply pow_nonzero. apply scale1_nz.
Qed.
End Reorder.
Lemma t_het_exact qr rcond condF nx n po s nugget X y m : qr_contract qr -> rcond_contract rcond ->
  het_train qr rcond condF nx 1 n po s nugget [0] X (fun i _ => y i) 0 = Some m ->
  forall i, (i < n)%nat -> (forall j, (j < n)%nat -> same nx (X j) (X i) -> y j = y i) -> predict_value m (X i) = y i.
Proof.
  intros HQ HR Hm i Hi E.
  assert (C : 0 < rep_sum nx n X (fun _ => 1) i). { rewrite <- group_sum by exact Hi. apply (cp nx n X). apply inverse_lt. exact Hi. }
  assert (G : forall v : vec, (forall j, (j < n)%nat -> same nx (X j) (X i) -> v j = v i) -> rep_mean nx n X v i = v i).
  { intros v Hv. unfold rep_mean, rep_count. assert (Q : rep_sum nx n X v i = v i * rep_sum nx n X (fun _ => 1) i); [|rewrite Q; field; lra].
    unfold rep_sum. rewrite <- rsum_scal_l. apply rsum_ext. intros j Hj. destruct (same_dec nx (X j) (X i)) as [S|S]; [rewrite Hv by assumption|]; ring. }
  assert (Ey : forall j, (j < n)%nat -> same nx (X j) (X i) -> ynorm n y j = ynorm n y i) by (intros j Hj S; unfold ynorm; rewrite (E j Hj S); reflexivity).
  rewrite (t_het_observed qr rcond condF HQ HR nx n po s nugget 0 X y m Hm i Hi); [apply G; exact E|].
  unfold obs_noise. destruct (Req_EM_T _ 0) as [|N]; [reflexivity|]. exfalso. apply N. unfold rep_ss. rewrite (G (ynorm n y) Ey). unfold rep_sum. apply rsum_zero. intros j Hj.
  destruct (same_dec nx (X j) (X i)) as [S|S]; [rewrite (Ey j Hj S); ring|reflexivity].
Qed.
