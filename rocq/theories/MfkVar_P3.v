(** C105: noise estimated from replicated inputs, level by level. *)
From Coq Require Import Reals Arith Bool List Lia Lra FunctionalExtensionality.
From Coquelicot Require Import Coquelicot.
From Verif Require Import RSum Mat Psd Psd2 Tri_M Tri_P Kernels_M Kernels_P Kernels_P2 Kernels_P3 Krg_M Krg_S Krg_P Krg_P2 Krg_P3 Krg_P8 Krg_Qr Mfk_M Mfk_S Mfk_P Mfk_P2 Mfk_P3 Mfk_P4 Mfk_P6 Rmtc_S Het_M Het_S Het_P1 Het_P2 Het_P3 Het_P4 MfkVar_M MfkVar_S MfkVar_P1.
Import ListNotations.
Open Scope list_scope.
Open Scope R_scope.

(** predictions depend on the first nx coordinates only *)
Lemma means_ext nx po rho x z : (forall c, (c < nx)%nat -> x c = z c) -> forall l prev, means nx po rho prev l x = means nx po rho prev l z.
Proof.
  intros H. induction l as [|lv l IH]; intros prev; [reflexivity|]. cbn [means]. cbv zeta.
  assert (L : level_mean nx po rho prev lv x = level_mean nx po rho prev lv z).
  { unfold level_mean. f_equal.
    - apply dot_ext; [|reflexivity]. intros j _. unfold basis. destruct prev; [destruct (Nat.ltb j (nq nx rho))|]; rewrite ?(fvec_ext rho nx x z _ H), ?(fvec_ext po nx x z _ H); reflexivity.
    - apply dot_ext; [|reflexivity]. intros i _. unfold lr. apply kd_ext. intros c Hc. rewrite (H c Hc). reflexivity. }
  rewrite L, IH. reflexivity.
Qed.
Lemma last_ext nx po rho x z l : (forall c, (c < nx)%nat -> x c = z c) -> last_mean nx po rho l x = last_mean nx po rho l z.
Proof. intros H. unfold last_mean. rewrite (means_ext nx po rho x z H). reflexivity. Qed.

Section H.
Variables (nx : nat) (po rho : poly) (qr : nat -> nat -> mat -> mat * mat) (rcond : nat -> mat -> R) (condF : nat -> nat -> mat -> R).
Hypotheses (HQ : qr_contract qr) (HR : rcond_contract rcond).
Variables (all : list data) (done : list level) (o : obs) (s : kspec) (s0 : R).
Let n := o_nt o.
Let Xn : nat -> vec := fun i => stdx all (o_X o i).
Let v : vec := fun i => (o_y o i - y_off all) / y_scale all.
Let l := uniq nx Xn n.
Let nt := length l.
Let idx := inverse nx Xn n.
Let on := opt_noise n idx v (fun _ => s0).
Let yu := fun u => masked_sum n idx u v / count n idx u.
Lemma mHidx i : (i < n)%nat -> (idx i < nt)%nat. Proof. apply inverse_lt. Qed.
Lemma mHrp u : (u < nt)%nat -> (rep nx Xn n u < n)%nat /\ idx (rep nx Xn n u) = u.
Proof. intros H. split; [apply rep_lt; exact H|apply inverse_rep; exact H]. Qed.
Lemma mcp u : (u < nt)%nat -> 0 < count n idx u. Proof. apply (cnt_pos n nt idx (rep nx Xn n) mHrp). Qed.
Lemma mcp1 u : (u < nt)%nat -> 1 <= count n idx u. Proof. apply (cnt_ge1 n nt idx (rep nx Xn n) mHrp). Qed.
Lemma my_rep u : y_mean_rep n 1 idx (fun a _ => v a) u = yu u.
Proof. unfold y_mean_rep. rewrite block1, size1. reflexivity. Qed.
Lemma mnoise_rep u : (u < nt)%nat -> noise_rep n 1 idx (fun a _ => v a) (fun _ => s0) u = on u / count n idx u.
Proof.
  intros Hu. pose proof (mcp u Hu) as C. pose proof (mcp1 u Hu) as C1. unfold noise_rep. cbv zeta. rewrite !block1, !size1, !my_rep. f_equal. unfold on, opt_noise. fold (yu u).
  destruct (Req_EM_T _ 0) as [Z|Z]; [reflexivity|].
  assert (D : masked_sum n idx u (fun a => v a - yu u) = 0).
  { rewrite gs_minus, gs_const. unfold yu. field. lra. }
  rewrite D. rewrite (gs_ext n idx u _ (fun a => (v a - yu u) ^ 2)) by (intros; unfold Rdiv; rewrite Rmult_0_l, Rminus_0_r; reflexivity).
  rewrite <- Rsqr_pow2, Rsqr_sqrt; [reflexivity|]. apply Rmult_le_pos; [apply gs_nonneg; intros; apply pow2_ge_0|].
  destruct (Req_dec (count n idx u - 1) 0) as [E|E]; [rewrite E, Rinv_0; lra|]. apply Rlt_le, Rinv_0_lt_compat. lra.
Qed.
(** the merged data as a level of Mfk_M *)
Definition merged : data := {| d_nt := nt; d_X := (fun u => o_X o (rep nx Xn n u)); d_y := (fun u => y_off all + y_scale all * yu u); d_k := s; d_noise := noise_rep n 1 idx (fun a _ => v a) (fun _ => s0) |}.
Lemma merged_y : lv_y all merged = yu.
Proof. apply functional_extensionality. intros u. unfold lv_y, merged. cbn [d_y]. field. apply ys_nz. Qed.
Lemma merged_level nug (d : data) lv : d_nt d = n -> d_X d = o_X o -> d_y d = o_y o -> d_k d = s -> o_noise0 o = [s0] ->
  iteration nx po rho qr rcond condF nug true true all done d o = Some lv -> train_level nx po rho qr rcond condF 0 all done merged = Some lv.
Proof.
  intros E1 E2 E3 E4 E5 E. unfold iteration in E. cbv zeta in E. cbn [andb] in E. rewrite E1, E2, E3, E4, E5 in E. cbn [bcast length Nat.eqb nth] in E. change (bcast (length (uniq nx (fun i => stdx all (o_X o i)) n)) [s0]) with (Some (fun _ : nat => s0)) in E. cbv iota beta in E.
  rewrite <- E. unfold train_level, train_std. cbv zeta. change (fun i : nat => (d_y merged i - y_off all) / y_scale all) with (lv_y all merged). rewrite merged_y.
  replace yu with (y_mean_rep n 1 idx (fun a _ => v a)) by (apply functional_extensionality; intros u; apply my_rep). reflexivity.
Qed.
Hypothesis P0 : 0 <= s0.
Lemma mon_nonneg u : (u < nt)%nat -> 0 <= on u.
Proof.
  intros Hu. unfold on, opt_noise. cbv zeta. destruct (Req_EM_T _ 0); [exact P0|]. pose proof (mcp1 u Hu). apply Rmult_le_pos; [apply gs_nonneg; intros; apply pow2_ge_0|].
  destruct (Req_dec (count n idx u - 1) 0) as [E|E]; [rewrite E, Rinv_0; lra|]. apply Rlt_le, Rinv_0_lt_compat. lra.
Qed.
Lemma std_same i j : same nx (Xn i) (Xn j) <-> same nx (o_X o i) (o_X o j).
Proof.
  split; intros H c Hc; specialize (H c Hc); unfold Xn, stdx in *.
  - assert (N : x_scale all c <> 0) by apply scale1_nz. apply (Rmult_eq_compat_r (x_scale all c)) in H. unfold Rdiv in H. rewrite !Rmult_assoc, Rinv_l, !Rmult_1_r in H by exact N. lra.
  - rewrite H. reflexivity.
Qed.
Lemma mgroup i f : (i < n)%nat -> masked_sum n idx (idx i) f = rep_sum nx n (o_X o) f i.
Proof.
  intros Hi. unfold masked_sum, rep_sum. apply rsum_ext. intros j Hj. destruct (same_dec nx (o_X o j) (o_X o i)) as [S|S]; destruct (Nat.eqb_spec (idx j) (idx i)) as [E|E]; try reflexivity; exfalso.
  - apply E. apply (proj2 (inverse_iff nx Xn n j i Hj Hi)). apply std_same. exact S.
  - apply S. apply std_same. apply (proj1 (inverse_iff nx Xn n j i Hj Hi)). exact E.
Qed.
Lemma mon_obs i : (i < n)%nat -> on (idx i) = sample_noise nx all o s0 i.
Proof.
  intros Hi. unfold on, opt_noise, sample_noise, rep_ss, rep_mean, rep_count, count. cbv zeta. rewrite !mgroup by exact Hi. reflexivity.
Qed.
Lemma mXu_idx i : (i < n)%nat -> same nx (Xn i) (Xn (rep nx Xn n (idx i))). Proof. intros Hi. apply (inverse_same nx Xn n i Hi). Qed.
Variable lv : level.
Hypothesis K : lvl_ok nx po rho 0 all done merged lv.
Let N := (lq nx rho done + np nx po)%nat.
Let Ku : mat := fun a b => kf s nx (Xn (rep nx Xn n a)) (Xn (rep nx Xn n b)).
Let Fu : mat := lF nx po rho all done merged.
Let ru (x : vec) : vec := fun u => kf s nx x (Xn (rep nx Xn n u)).
Let Rm := corr_matrix s nx nt (fun u => Xn (rep nx Xn n u)) 0 (d_noise merged).
Let Kred : mat := fun a b => Ku a b + (if Nat.eqb a b then on a / count n idx a else 0).
Let W (f x : vec) : vec := wstar nt N (l_par lv) (ru x) f.
Let WW (f x : vec) : vec := fun i => W f x (idx i) / count n idx (idx i).
Lemma mRm_eq a b : (a < nt)%nat -> (b < nt)%nat -> Rm a b = Kred a b.
Proof. intros Ha Hb. unfold Rm, Kred, Ku. rewrite corr_matrix_spec by assumption. destruct (Nat.eqb_spec a b) as [<- | D]; [|ring]. unfold merged. cbn [d_noise]. rewrite mnoise_rep by exact Ha. rewrite kf_diag. ring. Qed.
Lemma mblup_red f x : blup nt N Kred Fu (ru x) f (W f x).
Proof.
  pose proof (w_blup nt N Rm Fu (lv_y all merged) (l_par lv) (corr_matrix_sym _ _ _ _ _ _) (lk_fit _ _ _ _ _ _ _ _ K) (ru x) f) as [U B]. fold (W f x) in U, B.
  assert (E : forall w, mse nt Rm (ru x) w = mse nt Kred (ru x) w) by (intros; apply mse_ext; [apply mRm_eq|reflexivity]).
  split; [exact U|]. intros w' U'. rewrite <- !E. apply B. exact U'.
Qed.
Definition raw : data := level_data o (o_y o) s (sample_noise nx all o s0).
Lemma mblup_raw f x : blup n N (lv_corr nx 0 all raw) (lF nx po rho all done raw) (fun i => kf s nx x (Xn i)) f (WW f x).
Proof.
  pose proof (blup_spread n nt idx (rep nx Xn n) mHidx mHrp Ku on Fu (ru x) f N mon_nonneg (W f x) (mblup_red f x)) as B. fold (WW f x) in B.
  assert (Ek : forall i j, (i < n)%nat -> (j < n)%nat -> (fun i j => Ku (idx i) (idx j) + (if Nat.eqb i j then on (idx i) else 0)) i j = lv_corr nx 0 all raw i j).
  { intros i j Hi Hj. unfold lv_corr, raw, level_data. cbn [d_noise d_k d_X d_nt]. assert (Q : kf s nx (Xn i) (Xn j) = Ku (idx i) (idx j)).
    { unfold Ku. apply kd_ext. intros c Hc. rewrite (mXu_idx i Hi c Hc), (mXu_idx j Hj c Hc). reflexivity. }
    destruct (Nat.eqb_spec i j) as [<- | D]; [|fold (Xn i) (Xn j); rewrite Q; ring]. unfold Ku. rewrite kf_diag, (mon_obs i Hi). ring. }
  assert (Er : forall i, (i < n)%nat -> (fun i => ru x (idx i)) i = kf s nx x (Xn i)).
  { intros i Hi. unfold ru. apply kd_ext. intros c Hc. rewrite <- (mXu_idx i Hi c Hc). reflexivity. }
  assert (Ef : forall i j, (i < n)%nat -> (fun i j => Fu (idx i) j) i j = lF nx po rho all done raw i j).
  { intros i j Hi. unfold Fu, lF. cbn [d_X merged raw level_data]. fold (Xn (rep nx Xn n (idx i))) (Xn i). rewrite (last_ext nx po rho (Xn (rep nx Xn n (idx i))) (Xn i) done) by (intros c Hc; rewrite (mXu_idx i Hi c Hc); reflexivity).
    unfold basis. destruct (last_mean nx po rho done (Xn i)); [destruct (Nat.ltb j (nq nx rho))|]; rewrite ?(fvec_ext rho nx (Xn (rep nx Xn n (idx i))) (Xn i)), ?(fvec_ext po nx (Xn (rep nx Xn n (idx i))) (Xn i)) by (intros c Hc; rewrite (mXu_idx i Hi c Hc); reflexivity); reflexivity. }
  destruct B as [U M]. split.
  - apply (unb_ext n N (fun i j => Fu (idx i) j) _ f f); [intros i j Hi _; apply Ef; exact Hi|reflexivity|exact U].
  - intros w' U'. rewrite <- !(mse_ext n _ _ _ _ _ Ek Er). apply M. apply (unb_ext n N (lF nx po rho all done raw) _ f f); [intros i j Hi _; symmetry; apply Ef; exact Hi|reflexivity|exact U'].
Qed.
Lemma mvalue prev x : level_mean nx po rho prev lv x = dot n (WW (basis nx po rho prev x) x) v.
Proof.
  rewrite (mean_eq nx po rho 0 all done merged lv K). refine (eq_trans (eq_sym (w_mean nt N Rm Fu (lv_y all merged) (l_par lv) (lk_fit _ _ _ _ _ _ _ _ K) (ru x) (basis nx po rho prev x))) _).
  fold (W (basis nx po rho prev x) x). unfold WW. rewrite (dot_spread n nt idx mHidx). rewrite merged_y. reflexivity.
Qed.
Lemma mone f x c : (c < N)%nat -> f c = 1 -> (forall i, (i < n)%nat -> lF nx po rho all done raw i c = 1) -> rsum n (WW f x) = 1.
Proof. intros Hc Fc Fi. destruct (mblup_raw f x) as [U _]. rewrite <- Fc, <- (U c Hc). apply rsum_ext. intros i Hi. rewrite Fi by exact Hi. ring. Qed.
End H.
