From Coq Require Import Reals Arith Bool List Lia Lra FunctionalExtensionality.
From Coquelicot Require Import Coquelicot.
From Verif Require Import RSum Mat Psd Psd2 Tri_M Tri_P Kernels_M Kernels_P Kernels_P2 Kernels_P3 Krg_M Krg_S Krg_P Krg_P2 Krg_P4 Krg_P5 Rbf_P Poly_P LikGrad_M LikGrad_S LikGrad_P1 LikGrad_P2 LikGrad_P3 LikGrad_P4 Mgp_M Mgp_S Mgp_P1 Mgp_P2 Mgp_P3 Mgp_P4 Mgp_P5 Mgp_P6.
Import ListNotations.
Open Scope list_scope.
Open Scope R_scope.

(** ** another variance estimate and output scale *)
Section S2.
Variables (g : kclass) (nx nt p : nat) (X : nat -> vec) (F : mat) (pr : par) (s ys ys' k : R) (th : vec).
Hypotheses (Hs : p_sigma2 pr <> 0) (Hk : k <> 0) (Hy : ys' ^ 2 = ys ^ 2 * k).
Notation pr' := (set_s2 pr (p_sigma2 pr * k)).
Lemma dsigma_s2 i : dsigma_of g nx nt p X F ys' pr' th i = dsigma_of g nx nt p X F ys pr th i * k.
Proof.
  unfold dsigma_of. cbv zeta. change (p_gamma pr') with (p_gamma pr). change (dmu_of g nx nt p X F pr' th i) with (dmu_of g nx nt p X F pr th i). rewrite Hy. ring.
Qed.
Lemma hess_s2 om eta : hess_of g nx nt p X F ys' pr' th om eta = hess_of g nx nt p X F ys pr th om eta.
Proof.
  unfold hess_of. cbv zeta. rewrite !dsigma_s2. change (p_gamma pr') with (p_gamma pr). change (p_C pr') with (p_C pr). change (p_G pr') with (p_G pr). change (p_Q pr') with (p_Q pr). change (p_sigma2 pr') with (p_sigma2 pr * k).
  repeat match goal with |- context [dmu_of g nx nt p X F pr' th ?i] => change (dmu_of g nx nt p X F pr' th i) with (dmu_of g nx nt p X F pr th i) end.
  repeat match goal with |- context [Rinv_dmu_of g nx nt p X F pr' th ?i] => change (Rinv_dmu_of g nx nt p X F pr' th i) with (Rinv_dmu_of g nx nt p X F pr th i) end.
  repeat match goal with |- context [Rinv_dR_gamma_of g nx nt X pr' th ?i] => change (Rinv_dR_gamma_of g nx nt X pr' th i) with (Rinv_dR_gamma_of g nx nt X pr th i) end.
  repeat match goal with |- context [tr_of g nx nt X pr' th ?i] => change (tr_of g nx nt X pr' th i) with (tr_of g nx nt X pr th i) end.
  rewrite Hy. f_equal.
  match goal with |- - (?n / _ * (1 / ?n * ?A * _ - _ * (?c * k) * (?d * k)) - ?t1 + ?t2) / ?n' = _ => set (AA := 1 / n * A); set (cc := c); set (dd := d); set (tt1 := t1); set (tt2 := t2); set (N := n) end.
  replace (N / (p_sigma2 pr * k) * (AA * (ys ^ 2 * k) - 1 / (p_sigma2 pr * k) * (cc * k) * (dd * k))) with (N / p_sigma2 pr * (AA * ys ^ 2 - 1 / p_sigma2 pr * cc * dd)) by (field; split; assumption). reflexivity.
Qed.
End S2.
Section Scale.
Variables (qr : nat -> nat -> mat -> mat * mat) (rcond : nat -> mat -> R) (condF : nat -> nat -> mat -> R) (lsolve : nat -> mat -> vec -> option vec).
Variables (nx nt nc : nat) (po : poly) (pv nugget : R) (noise : vec) (X : nat -> vec) (y : vec).
Variables (a b : R).
Hypotheses (Ha : 0 < a) (HQ : qr_contract qr) (HR : rcond_contract rcond) (NT : data_not_trend nx nt po X y).
Notation p := (n_regr po nx).
Notation Xn := (Xnorm nt X).
Notation F := (fun i j => fvec po nx (Xnorm nt X i) j).
Notation y' := (fun i => a * y i + b).
Notation g := (GStd ActExp nc).
Notation rlm y := (rl qr rcond condF g nx nt p Xn F (ynorm nt y) (scale1 nt y) nugget noise (INR nt)).
Notation trn y := (mgp_train qr rcond condF nx nt nc po pv nugget noise X y).
Notation mk y := (mk qr rcond condF nx nt nc po pv nugget noise X y).
Hypothesis (H2 : (2 <= nt)%nat).
Lemma std_nz : std1 nt y <> 0.
Proof.
  intros Z. apply NT. exists (fun _ => 0). intros i Hi. rewrite rsum_zero by (intros; ring). unfold ynorm. rewrite (std_zero nt y H2 Z i Hi). unfold Rdiv. ring.
Qed.
Lemma ys_eq : scale1 nt y' = a * scale1 nt y. Proof. apply scale_affine; [lia|exact Ha|exact std_nz]. Qed.
Lemma ys2 : scale1 nt y' ^ 2 = scale1 nt y ^ 2 * a ^ 2. Proof. rewrite ys_eq. ring. Qed.
Lemma rl_scale th : rlm y' th = map_fit (a ^ 2) (rlm y th).
Proof.
  unfold rl. rewrite (rl_ext qr rcond condF nt p (INR nt) (R_of g nx nt Xn nugget noise th) (R_of g nx nt Xn nugget noise th) F F (ynorm nt y) (ynorm nt y') (scale1 nt y) (scale1 nt y')); try reflexivity; [|apply scale1_nz|].
  - f_equal. rewrite ys2. field. apply scale1_nz.
  - intros i Hi. symmetry. unfold ynorm. apply (norm_affine nt a b y H2 Ha i Hi).
Qed.
Lemma a2 : a ^ 2 <> 0. Proof. apply pow_nonzero. lra. Qed.
Lemma s2_nz th v pr : (p <= nt)%nat -> rlm y th = Fit v pr -> p_sigma2 pr <> 0.
Proof.
  intros Hp E. destruct (rl_facts qr rcond condF g nx nt p Xn F (ynorm nt y) (scale1 nt y) nugget noise (INR nt) HQ HR Hp th v pr E) as (O & _ & -> & _).
  pose proof (SS_pos nt p (R_of g nx nt Xn nugget noise th) F (ynorm nt y) pr (R_of_sym g nx nt Xn nugget noise th) O NT) as P.
  assert (0 < INR nt) by (apply lt_0_INR; lia). pose proof (scale1_nz nt y) as Z. intros Q. apply Rmult_integral in Q. destruct Q as [Q|Q]; [|exact (pow_nonzero _ 2 Z Q)].
  assert (0 < SS nt (ynorm nt y) pr / INR nt) by (apply Rdiv_lt_0_compat; assumption). lra.
Qed.
Lemma hess_scale th om eta : (p <= nt)%nat -> mgp_hess qr rcond condF nx nt nc po pv nugget noise X y' th om eta = mgp_hess qr rcond condF nx nt nc po pv nugget noise X y th om eta.
Proof.
  intros Hp. unfold mgp_hess, rl_hessian. rewrite rl_scale. destruct (rlm y th) as [v pr| |] eqn:E; try reflexivity. cbn [map_fit].
  rewrite (hess_s2 g nx nt p Xn F pr (scale1 nt y) (scale1 nt y') (a ^ 2) th (s2_nz th v pr Hp E) a2 ys2). reflexivity.
Qed.
Lemma isr_scale th : (p <= nt)%nat -> inv_sigma_R qr rcond condF nx nt nc po pv nugget noise X y' th = inv_sigma_R qr rcond condF nx nt nc po pv nugget noise X y th.
Proof.
  intros Hp. unfold inv_sigma_R. destruct (hess_ij (nx * nc)) as [ij rows].
  assert (E : (fun k => match mgp_hess qr rcond condF nx nt nc po pv nugget noise X y' th (fst (ij k)) (snd (ij k)) with Some h => h | None => 0 end) = (fun k => match mgp_hess qr rcond condF nx nt nc po pv nugget noise X y th (fst (ij k)) (snd (ij k)) with Some h => h | None => 0 end)) by (apply functional_extensionality; intros k; rewrite hess_scale by exact Hp; reflexivity).
  cbv zeta. rewrite E. reflexivity.
Qed.
Lemma train_scale th m : trn y th = Some m -> exists m', trn y' th = Some m'.
Proof.
  intros E. apply train_iff in E. destruct E as (_ & Hp & Z & v & pr & E & _). exists (mk y' th (set_s2 pr (p_sigma2 pr * a ^ 2))). apply train_iff. split; [exact H2|]. split; [exact Hp|]. split; [exact Z|]. exists v, (set_s2 pr (p_sigma2 pr * a ^ 2)). rewrite rl_scale, E. split; reflexivity.
Qed.
(** the two trained models *)
Section Two.
Variables (th : vec) (pr : par).
Hypothesis Hp : (p <= nt)%nat.
Notation m := (mk y th pr).
Notation pr' := (set_s2 pr (p_sigma2 pr * a ^ 2)).
Notation m' := (mk y' th pr').
Lemma rof_scale q gr : r_of m' q gr = r_of m q gr. Proof. reflexivity. Qed.
Lemma value_scale x : mgp_value m' nx x = match mgp_value m nx x with Some v => Some (a * v + b) | None => None end.
Proof.
  unfold mgp_value. rewrite !norm_x. f_equal. change (g_ymean m') with (mean nt y'). change (g_ystd m') with (scale1 nt y'). rewrite mean_affine, ys_eq by lia.
  change (f_of m' (xnrm nt X x, None)) with (f_of m (xnrm nt X x, None)). rewrite rof_scale. change (p_beta (g_par m')) with (p_beta (g_par m)). change (p_gamma (g_par m')) with (p_gamma (g_par m)).
  change (g_ymean m) with (mean nt y). change (g_ystd m) with (scale1 nt y). change (g_po m') with (g_po m). change (g_nx m') with (g_nx m). change (g_nt m') with (g_nt m). ring.
Qed.
Lemma mse_scale q : mgp_mse m' q = a ^ 2 * mgp_mse m q.
Proof.
  unfold mgp_mse. cbv zeta. change (mgp_rt m' q) with (mgp_rt m q). change (mgp_u m' q) with (mgp_u m q). change (p_sigma2 (g_par m')) with (p_sigma2 pr * a ^ 2). change (p_sigma2 (g_par m)) with (p_sigma2 pr).
  change (g_po m') with (g_po m). change (g_nx m') with (g_nx m). change (g_nt m') with (g_nt m).
  match goal with |- context [1 - ?c + ?d] => generalize (1 - c + d) end. intros e. assert (0 < a ^ 2) by (apply pow_lt; exact Ha). replace (p_sigma2 pr * a ^ 2 * e) with (a ^ 2 * (p_sigma2 pr * e)) by ring.
  destruct (Rlt_dec (p_sigma2 pr * e) 0) as [L|L]; destruct (Rlt_dec (a ^ 2 * (p_sigma2 pr * e)) 0) as [L'|L']; try ring; exfalso.
  - apply L'. rewrite <- (Rmult_0_r (a ^ 2)). apply Rmult_lt_compat_l; assumption.
  - apply L. apply (Rmult_lt_reg_l (a ^ 2)); [assumption|]. rewrite Rmult_0_r. exact L'.
Qed.
Lemma dy_scale q : dy_hyper m' q = dy_hyper m q. Proof. reflexivity. Qed.
Lemma dmse_scale q k : p_sigma2 pr <> 0 -> dmse_hyper m' q k = a ^ 2 * dmse_hyper m q k.
Proof.
  intros Z. unfold dmse_hyper. cbv zeta. rewrite mse_scale. change (g_dsigma m' k) with (dsigma_of g nx nt p Xn F (scale1 nt y') pr' th k). change (g_dsigma m k) with (dsigma_of g nx nt p Xn F (scale1 nt y) pr th k).
  rewrite (dsigma_s2 g nx nt p Xn F pr (scale1 nt y) (scale1 nt y') (a ^ 2) th ys2). 
  change (mgp_rt m' q) with (mgp_rt m q). change (mgp_u m' q) with (mgp_u m q). change (p_sigma2 (g_par m')) with (p_sigma2 pr * a ^ 2). change (p_sigma2 (g_par m)) with (p_sigma2 pr). rewrite rof_scale.
  change (g_dR m' k) with (g_dR m k). change (p_C (g_par m')) with (p_C (g_par m)). change (p_G (g_par m')) with (p_G (g_par m)). change (p_Ft (g_par m')) with (p_Ft (g_par m)). change (g_po m') with (g_po m). change (g_nx m') with (g_nx m). change (g_nt m') with (g_nt m).
  pose proof a2. field. split; [exact Z|lra].
Qed.
End Two.
Lemma t_scale_one th m x v M : trn y th = Some m -> lsolve_contract lsolve -> mgp_variance lsolve m nx x = Some (v, M) ->
  forall q sy sM, normalise m nx x = Some q -> lsolve (nx * nc)%nat (g_isr m) (dy_hyper m q) = Some sy -> lsolve (nx * nc)%nat (g_isr m) (dmse_hyper m q) = Some sM ->
  exists m' v', trn y' th = Some m' /\ mgp_value m' nx x = Some (a * the (mgp_value m nx x) + b) /\ mgp_variance lsolve m' nx x = Some (v', a ^ 2 * M) /\
    v' = if Req_EM_T M 0 then 0 else Rmax 0 (a ^ 2 * (4 / 3 * M + dot (nx * nc) (dmse_hyper m q) sM / (3 * M)) + dot (nx * nc) (dy_hyper m q) sy).
Proof.
  intros E LC EV q sy sM Eq Ey EM. pose proof E as E0. apply train_iff in E0. destruct E0 as (_ & Hp & Z & vl & pr & Er & Em). pose proof (s2_nz th vl pr Hp Er) as Zs. set (pr' := set_s2 pr (p_sigma2 pr * a ^ 2)).
  assert (E' : trn y' th = Some (mk y' th pr')). { apply train_iff. split; [exact H2|]. split; [exact Hp|]. split; [exact Z|]. exists vl, pr'. rewrite rl_scale, Er. split; reflexivity. }
  subst m. rewrite norm_x in Eq. injection Eq as <-. set (q := (xnrm nt X x, @None vec)) in *.
  pose proof (isr_sym qr rcond condF nx nt nc po pv nugget noise X y HQ HR th Hp) as Sy. change (g_isr (mk y th pr)) with (inv_sigma_R qr rcond condF nx nt nc po pv nugget noise X y th) in *. set (I := inv_sigma_R qr rcond condF nx nt nc po pv nugget noise X y th) in *.
  destruct LC as [LS LN].
  destruct (lsolve (nx * nc) I (dmse_hyper (mk y' th pr') q)) as [sM'|] eqn:EM'; [|apply (LN _ _ _ Sy) in EM'; apply (LN _ _ (dmse_hyper (mk y th pr) q) Sy) in EM'; congruence].
  assert (A2 : dot (nx * nc) (dmse_hyper (mk y' th pr') q) sM' = a ^ 4 * dot (nx * nc) (dmse_hyper (mk y th pr) q) sM).
  { pose proof (LS _ _ _ _ EM') as W'. pose proof (LS _ _ _ _ EM) as W.
    rewrite (dot_ext (nx * nc) (dmse_hyper (mk y' th pr') q) sM' (fun i => a ^ 2 * dmse_hyper (mk y th pr) q i) sM' (fun i _ => dmse_scale th pr q i Zs) (fun _ _ => eq_refl)).
    rewrite dot_scal_l. rewrite (dot_ext (nx * nc) (dmse_hyper (mk y th pr) q) sM' (mv (nx * nc) I sM) sM') by (intros; try reflexivity; symmetry; apply W; assumption).
    rewrite dot_sym, (dot_mv_sym (nx * nc) I sM' sM Sy).
    rewrite (dot_ext (nx * nc) sM (mv (nx * nc) I sM') sM (fun i => a ^ 2 * dmse_hyper (mk y th pr) q i)) by (intros; try reflexivity; rewrite W' by assumption; apply dmse_scale; exact Zs).
    rewrite dot_sym, dot_scal_l. ring. }
  unfold mgp_variance in EV. rewrite norm_x in EV. fold q in EV. cbv zeta in EV. change (g_nx (mk y th pr) * g_nc (mk y th pr))%nat with (nx * nc)%nat in EV. change (g_isr (mk y th pr)) with I in EV. rewrite Ey, EM in EV. injection EV as EV1 EV2.
  exists (mk y' th pr'). eexists. split; [exact E'|]. split; [unfold pr'; rewrite (value_scale th pr Hp x); unfold mgp_value; rewrite norm_x; reflexivity|].
  unfold mgp_variance. rewrite norm_x. fold q. cbv zeta. change (g_nx (mk y' th pr') * g_nc (mk y' th pr'))%nat with (nx * nc)%nat. change (g_isr (mk y' th pr')) with (inv_sigma_R qr rcond condF nx nt nc po pv nugget noise X y' th). rewrite isr_scale by exact Hp. fold I.
  change (dy_hyper (mk y' th pr') q) with (dy_hyper (mk y th pr) q). rewrite Ey, EM', A2. pose proof (mse_scale th pr q) as MS. fold pr' in MS. rewrite MS, EV2. split; [reflexivity|].
  pose proof a2 as Za. destruct (Req_EM_T M 0) as [Z0|Z0]; destruct (Req_EM_T (a ^ 2 * M) 0) as [Z1|Z1].
  - destruct (Rlt_dec 0 0); reflexivity.
  - exfalso. apply Z1. rewrite Z0. ring.
  - exfalso. apply Rmult_integral in Z1. destruct Z1; contradiction.
  - match goal with |- (if Rlt_dec ?s 0 then 0 else ?s) = Rmax 0 ?s' => replace s' with s by (field; split; [exact Z0|lra]); generalize s end.
    intros s. unfold Rmax. destruct (Rlt_dec s 0), (Rle_dec 0 s); lra.
Qed.
End Scale.
