(** Units of each level separately: one level, then all. *)
From Coq Require Import Reals Arith Bool List Lia Lra FunctionalExtensionality.
From Verif Require Import RSum Mat Tri_M Tri_P Kernels_M Krg_M Krg_S Krg_P Krg_P2 Rmtc_S Het_S Order_P1 Order_P2 Order_P3 Mfk_M Mfk_S Mfk_P Mfk_P2 MfkUnits_S MfkUnits_P2 MfkUnits_P4 MfkUnits_P5.
Import ListNotations.
Open Scope list_scope.
Open Scope R_scope.
Lemma fvec_0 po nx x : fvec po nx x 0 = 1.
Proof.
  unfold fvec. destruct po; cbn [regr]; try reflexivity.
  assert (G : forall (l : list nat) (s : list R), s <> [] -> nth 0 (fold_left (fun f k => f ++ map (fun j => x k * x j) (seq k (nx - k))) l s) 0 = nth 0 s 0).
  { induction l as [|k l IH]; intros s Hs; [reflexivity|]. cbn [fold_left]. rewrite IH; [|destruct s; [congruence|discriminate]]. destruct s; [congruence|reflexivity]. }
  rewrite G; [reflexivity|discriminate].
Qed.
Lemma np_pos nx po : (0 < np nx po)%nat.
Proof. unfold np. destruct po; cbn [n_regr]; lia. Qed.
Section Step6.
Variables (nx : nat) (po rho : poly) (nugget : R).
Hypothesis HD : (degree rho <= degree po)%nat.
Variables (all all' : list data) (ak bk al be : R) (done done' : list level) (d : data) (lv lv' : level).
Hypotheses (EX : stdx all' = stdx all) (Hal : al <> 0) (EQ : lq nx rho done' = lq nx rho done).
Hypothesis EM : forall x, last_mean nx po rho done' x = option_map (fun v => al * v + be) (last_mean nx po rho done x).
Let d' := in_units ak bk d.
Hypotheses (K : lvl_ok nx po rho nugget all done d lv) (K' : lvl_ok nx po rho nugget all' done' d' lv').
Let q := lq nx rho done.
Let N := (q + np nx po)%nat.
Let n := d_nt d.
Let a := ak * y_scale all / y_scale all'.
Let b := (ak * y_off all + bk - y_off all') / y_scale all'.
Lemma q2 : (q + q <= N)%nat.
Proof. unfold N. assert (q <= np nx po)%nat; [|lia]. unfold q, lq, np, nq. destruct done; [lia|]. apply n_regr_le. exact HD. Qed.
Lemma qN : (q < N)%nat. Proof. unfold N. pose proof (np_pos nx po). lia. Qed.
Definition qof (prev : option R) : nat := match prev with None => 0%nat | Some _ => nq nx rho end.
Lemma basis_tcol prev x j : (j < qof prev + np nx po)%nat -> basis nx po rho (option_map (fun v => al * v + be) prev) x j = tcol (qof prev) al be (basis nx po rho prev x) j.
Proof.
  intros Hj. unfold tcol. destruct prev as [mu|]; cbn [option_map basis qof]; [|reflexivity]. destruct (Nat.ltb_spec j (nq nx rho)) as [L|L]; [|reflexivity].
  destruct (Nat.ltb_spec (nq nx rho + j) (nq nx rho)) as [|_]; [lia|]. replace (nq nx rho + j - nq nx rho)%nat with j by lia. rewrite <- (fvec_prefix po rho nx x j HD L). ring.
Qed.
Lemma basis_one prev x : basis nx po rho prev x (qof prev) = 1.
Proof. unfold basis, qof. destruct prev; [|apply fvec_0]. rewrite Nat.ltb_irrefl, Nat.sub_diag. apply fvec_0. Qed.
Lemma qof_last x : qof (last_mean nx po rho done x) = q.
Proof.
  unfold q, lq, qof. destruct (last_mean nx po rho done x) as [m|] eqn:E.
  - destruct done; [discriminate E|reflexivity].
  - apply last_none in E. rewrite E. reflexivity.
Qed.
Let Z := fun i => stdx all (d_X d i).
Let Rm := corr_matrix (d_k d) nx n Z nugget (d_noise d).
Let F := lF nx po rho all done d.
Let F' := lF nx po rho all' done' d'.
Lemma F_tcol i j : (i < n)%nat -> (j < N)%nat -> F' i j = tcol q al be (F i) j.
Proof.
  intros Hi Hj. unfold F', F, lF. rewrite EX. cbn [d_X in_units d']. rewrite EM. rewrite <- (qof_last (stdx all (d_X d i))). apply basis_tcol. rewrite qof_last. exact Hj.
Qed.
Lemma F_one i : (i < n)%nat -> F i q = 1.
Proof. intros Hi. unfold F, lF. rewrite <- (qof_last (stdx all (d_X d i))). apply basis_one. Qed.
Lemma ysnz : y_scale all <> 0. Proof. apply scale1_nz. Qed.
Lemma ysnz' : y_scale all' <> 0. Proof. apply scale1_nz. Qed.
Lemma Y_aff i : (i < n)%nat -> lv_y all' d' i = a * lv_y all d i + b.
Proof. intros _. unfold lv_y, a, b, d'. cbn [d_y in_units]. pose proof ysnz. pose proof ysnz'. field. split; assumption. Qed.
Let O : fit_ok n N Rm F (lv_y all d) (l_par lv) := lk_fit _ _ _ _ _ _ _ _ K.
Let O' : fit_ok n N Rm F' (lv_y all' d') (l_par lv').
Proof. pose proof (lk_fit _ _ _ _ _ _ _ _ K') as H. rewrite EQ, EX in H. exact H. Qed.
Let Sy : msym n Rm := corr_matrix_sym (d_k d) nx n Z nugget (d_noise d).
Lemma beta_low j : (j < q)%nat -> p_beta (l_par lv') j = a / al * p_beta (l_par lv) j.
Proof. exact (t_beta_low n N q al be a b Rm F F' _ _ _ _ q2 qN Hal Sy F_tcol Y_aff F_one O O' j). Qed.
Lemma gam i : (i < n)%nat -> p_gamma (l_par lv') i = a * p_gamma (l_par lv) i.
Proof. exact (t_gamma n N q al be a b Rm F F' _ _ _ _ q2 qN Hal Sy F_tcol Y_aff F_one O O' i). Qed.
Lemma trend V V' : (forall j, (j < N)%nat -> V' j = tcol q al be V j) -> dot N V' (p_beta (l_par lv')) = a * dot N V (p_beta (l_par lv)) + b * V q.
Proof. exact (t_trend n N q al be a b Rm F F' _ _ _ _ q2 qN Hal Sy F_tcol Y_aff F_one O O' V V'). Qed.
Lemma mean6 prev x : qof prev = q -> level_mean nx po rho (option_map (fun v => al * v + be) prev) lv' x = a * level_mean nx po rho prev lv x + b.
Proof.
  intros E. rewrite (mean_eq nx po rho nugget all done d lv K), (mean_eq nx po rho nugget all' done' d' lv' K'). rewrite EQ. fold q N. rewrite EX.
  rewrite (trend (basis nx po rho prev x)) by (intros j Hj; rewrite <- E; apply basis_tcol; rewrite E; exact Hj).
  rewrite <- E, basis_one. cbn [d_nt d_k d_X in_units d']. fold n.
  rewrite (dot_ext n (gr nx (d_k d) (fun i => stdx all (d_X d i)) x) (p_gamma (l_par lv')) (gr nx (d_k d) (fun i => stdx all (d_X d i)) x) (fun i => a * p_gamma (l_par lv) i)) by (first [reflexivity|exact gam]).
  assert (D : forall u v, dot n u (fun i => a * v i) = a * dot n u v) by (intros u v; unfold dot; rewrite <- rsum_scal_l; apply rsum_ext; intros; ring). rewrite D. ring.
Qed.
Lemma lvs6 : l_nt lv = n /\ l_q lv = q /\ l_k lv = d_k d /\ l_Xn lv = Z.
Proof. rewrite (lk_lv _ _ _ _ _ _ _ _ K). cbn. repeat split. Qed.
Lemma lvs6' : l_nt lv' = n /\ l_q lv' = q /\ l_k lv' = d_k d /\ l_Xn lv' = Z.
Proof. rewrite (lk_lv _ _ _ _ _ _ _ _ K'). cbn [l_nt l_q l_k l_Xn]. rewrite EQ, EX. repeat split. Qed.
Lemma deriv6 dp x kx : qof dp = q -> rho = PConstant -> level_deriv nx po rho (option_map (fun v => al * v) dp) lv' x kx = a * level_deriv nx po rho dp lv x kx.
Proof.
  intros E Er. unfold level_deriv, lr. destruct lvs6 as (-> & -> & -> & ->). destruct lvs6' as (-> & -> & -> & ->). fold N.
  assert (ET : forall j, (j < N)%nat -> dbasis nx po rho (option_map (fun v => al * v) dp) x j = tcol q al be (dbasis nx po rho dp x) j).
  { intros j Hj. unfold tcol. rewrite <- E. destruct dp as [v|]; cbn [option_map dbasis qof]; [|reflexivity]. destruct (Nat.ltb_spec j (nq nx rho)) as [L|L]; [|reflexivity].
    destruct (Nat.ltb_spec (nq nx rho + j) (nq nx rho)) as [|_]; [lia|]. assert (j = 0%nat) as -> by (unfold nq in L; rewrite Er in L; cbn [n_regr] in L; lia).
    replace (nq nx rho + 0 - nq nx rho)%nat with 0%nat by lia. unfold mfk_df. destruct po; cbn [Nat.eqb]; ring. }
  rewrite (trend (dbasis nx po rho dp x) _ ET).
  assert (E0 : dbasis nx po rho dp x q = 0).
  { rewrite <- E. unfold dbasis, qof. destruct dp; [rewrite Nat.ltb_irrefl, Nat.sub_diag|]; unfold mfk_df; destruct po; reflexivity. }
  rewrite E0.
  rewrite (dot_ext n (fun i => (x kx - Z i kx) * kf (d_k d) nx x (Z i)) (p_gamma (l_par lv')) (fun i => (x kx - Z i kx) * kf (d_k d) nx x (Z i)) (fun i => a * p_gamma (l_par lv) i)) by (first [reflexivity|exact gam]).
  assert (D : forall u v, dot n u (fun i => a * v i) = a * dot n u v) by (intros u v; unfold dot; rewrite <- rsum_scal_l; apply rsum_ext; intros; ring). rewrite D. ring.
Qed.
Lemma s26 : l_s2 (y_scale all') lv' = a ^ 2 * l_s2 (y_scale all) lv.
Proof.
  unfold l_s2. rewrite (lk_s2 _ _ _ _ _ _ _ _ K), (lk_s2 _ _ _ _ _ _ _ _ K'). rewrite EQ. cbn [d_nt in_units d']. fold n q N.
  rewrite (t_rho n N q al be a b Rm F F' _ _ _ _ q2 qN Hal Sy F_tcol Y_aff F_one O O').
  pose proof (dof_pos nx po rho nugget all done d lv K) as P. fold n q in P. pose proof ysnz. pose proof ysnz'. set (r := dot n _ _). field. repeat split; try assumption; lra.
Qed.
Lemma rtrt6 x : dot n (grt nx n (d_k d) Z (l_par lv') x) (grt nx n (d_k d) Z (l_par lv') x) = dot n (grt nx n (d_k d) Z (l_par lv) x) (grt nx n (d_k d) Z (l_par lv) x).
Proof. unfold grt. exact (same_fsub n N Rm F F' _ _ _ _ Sy O O' _ _ _ _ (fun _ _ => eq_refl) (fun _ _ => eq_refl)). Qed.
Lemma mse6 u u' x : (forall j, (j < N)%nat -> u' j = tcol q al be u j) ->
  1 - dot n (grt nx n (d_k d) Z (l_par lv') x) (grt nx n (d_k d) Z (l_par lv') x) + dot N (gu nx n N (d_k d) Z (l_par lv') u' x) (gu nx n N (d_k d) Z (l_par lv') u' x)
  = 1 - dot n (grt nx n (d_k d) Z (l_par lv) x) (grt nx n (d_k d) Z (l_par lv) x) + dot N (gu nx n N (d_k d) Z (l_par lv) u x) (gu nx n N (d_k d) Z (l_par lv) u x).
Proof.
  intros Hu. pose proof (w_blup n N Rm _ _ (l_par lv) Sy O (gr nx (d_k d) Z x) u) as W. set (w := wstar n N (l_par lv) (gr nx (d_k d) Z x) u) in W.
  rewrite (g_blup_mse nx n N (d_k d) Z nugget (d_noise d) _ _ (l_par lv) O u x w W).
  rewrite (g_blup_mse nx n N (d_k d) Z nugget (d_noise d) _ _ (l_par lv') O' u' x w); [reflexivity|].
  exact (blup_tcol q N al be q2 Hal n Rm F F' (gr nx (d_k d) Z x) u u' w F_tcol Hu W).
Qed.
Lemma rt6 x : l_rt nx lv x = grt nx n (d_k d) Z (l_par lv) x. Proof. exact (rt_eq' nx po rho nugget all done d lv K x). Qed.
Lemma rt6' x : l_rt nx lv' x = grt nx n (d_k d) Z (l_par lv') x. Proof. rewrite (rt_eq' nx po rho nugget all' done' d' lv' K'), EX. reflexivity. Qed.
Lemma u6 g x : l_u nx po lv g x = gu nx n N (d_k d) Z (l_par lv) g x. Proof. exact (u_eq' nx po rho nugget all done d lv K g x). Qed.
Lemma u6' g x : l_u nx po lv' g x = gu nx n N (d_k d) Z (l_par lv') g x. Proof. rewrite (u_eq' nx po rho nugget all' done' d' lv' K'), EX, EQ. reflexivity. Qed.
Lemma first6 x : q = 0%nat -> first_mse nx po (y_scale all') lv' x = a ^ 2 * first_mse nx po (y_scale all) lv x.
Proof.
  intros E. unfold first_mse. destruct lvs6 as (-> & -> & _). destruct lvs6' as (-> & -> & _). rewrite s26, rt6, rt6', u6, u6'. fold N. rewrite (mse6 (fvec po nx x) (fvec po nx x) x); [ring|]. intros j Hj. unfold tcol. rewrite E. reflexivity.
Qed.
Lemma sr6 inv x : inv_contract inv -> sigma2_rho nx po rho inv (y_scale all') lv' x = (a / al) ^ 2 * sigma2_rho nx po rho inv (y_scale all) lv x.
Proof.
  intros HI. rewrite (sr_eq nx po rho nugget all done d lv K inv), (sr_eq nx po rho nugget all' done' d' lv' K' inv). rewrite EQ, s26. fold q N.
  rewrite (dot_ext q (fvec rho nx x) (p_beta (l_par lv')) (fvec rho nx x) (fun j => a / al * p_beta (l_par lv) j)) by (first [reflexivity|exact beta_low]).
  assert (D : dot q (fvec rho nx x) (fun j => a / al * p_beta (l_par lv) j) = a / al * dot q (fvec rho nx x) (p_beta (l_par lv))) by (unfold dot; rewrite <- rsum_scal_l; apply rsum_ext; intros; ring). rewrite D.
  rewrite (sub_form N q (inv N (mm N (tr (p_G (l_par lv'))) (p_G (l_par lv')))) (fvec rho nx x)) by (unfold N; lia). rewrite (sub_form N q (inv N (mm N (tr (p_G (l_par lv))) (p_G (l_par lv)))) (fvec rho nx x)) by (unfold N; lia). cbv zeta.
  set (v := fun c => if Nat.ltb c q then fvec rho nx x c else 0).
  assert (QF : forall B, rsum N (fun b0 => rsum N (fun a0 => v a0 * B a0 b0) * v b0) = dot N v (mv N B v)).
  { intros B. unfold dot, mv. rewrite (rsum_ext N _ (fun b => rsum N (fun a => v a * B a b * v b))) by (intros; rewrite rsum_scal_r; reflexivity). rewrite rsum_swap. apply rsum_ext. intros i Hi. rewrite <- rsum_scal_l. apply rsum_ext. intros; ring. }
  rewrite !QF.
  pose proof (M_inv nx po rho nugget all done d lv K inv HI) as I. pose proof (M_inv nx po rho nugget all' done' d' lv' K' inv HI) as I'. rewrite EQ in I'. fold q N in I, I'.
  rewrite (t_inv n N q al be Rm F F' _ _ _ _ q2 Hal Sy F_tcol O O' _ _ v I I'); [field; exact Hal|].
  intros j Hj. unfold v. destruct (Nat.ltb_spec j q); [lia|reflexivity].
Qed.
Lemma next6 inv pls mu v x : inv_contract inv -> q = nq nx rho -> next_mse nx po rho inv pls (y_scale all') (al * mu + be) (al ^ 2 * v) lv' x = a ^ 2 * next_mse nx po rho inv pls (y_scale all) mu v lv x.
Proof.
  intros HI E.
  assert (ET : forall j, (j < N)%nat -> basis nx po rho (Some (al * mu + be)) x j = tcol q al be (basis nx po rho (Some mu) x) j).
  { intros j Hj. rewrite E. change (Some (al * mu + be)) with (option_map (fun v => al * v + be) (Some mu)). apply (basis_tcol (Some mu)). cbn [qof]. rewrite <- E. exact Hj. }
  pose proof (mse6 _ _ x ET) as EU. destruct pls.
  - rewrite (next_pls_eq nx po rho nugget all done d lv K inv mu v x), (next_pls_eq nx po rho nugget all' done' d' lv' K' inv (al * mu + be) (al ^ 2 * v) x). cbv zeta. rewrite EQ, EX, s26, (sr6 inv x HI). cbn [d_nt d_k d_X in_units d']. fold n q N.
    change (fun i => stdx all (d_X d i)) with Z. rewrite (rtrt6 x) in EU |- *. set (U' := dot N (gu nx n N (d_k d) Z (l_par lv') _ x) _) in *. set (U := dot N (gu nx n N (d_k d) Z (l_par lv) _ x) _) in *. replace U' with U by lra. field. exact Hal.
  - unfold next_mse. cbv zeta. destruct lvs6 as (-> & -> & _). destruct lvs6' as (-> & -> & _). rewrite s26, rt6, rt6', u6, u6', (sr6 inv x HI). fold N. rewrite EU. field. exact Hal.
Qed.
End Step6.
