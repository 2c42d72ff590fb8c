From Coq Require Import Reals Arith Bool List Lia Lra FunctionalExtensionality.
From Coquelicot Require Import Coquelicot.
From Verif Require Import RSum Mat Psd Psd2 Tri_M Tri_P Kernels_M Kernels_P Kernels_P2 Kernels_P3 Krg_M Krg_S Krg_P Krg_P2 Rbf_P Poly_P LikGrad_M LikGrad_S LikGrad_P1 LikGrad_P2 LikGrad_P3 LikGrad_P4 Mgp_M Mgp_P1 Mgp_P2 Mgp_P3.
Import ListNotations.
Open Scope list_scope.
Open Scope R_scope.

(** derivative of the mean squared error of the unbiased predictor *)
Section MseD.
Variables (n p : nat) (Rm : R -> mat) (dR : mat) (F : mat) (c : R -> vec) (c' e : vec) (ga be : R -> vec) (t0 : R).
Hypotheses (Sm : forall t, msym n (Rm t)) (Sd : msym n dR) (Pd : locally t0 (fun t => mpd n (Rm t))) (Inj : injective n p F)
  (DR : forall i j, (i < n)%nat -> (j < n)%nat -> is_derive (fun t => Rm t i j) t0 (dR i j))
  (Dc : forall i, (i < n)%nat -> is_derive (fun t => c t i) t0 (c' i))
  (E1 : locally t0 (fun t => forall i, (i < n)%nat -> mv n (Rm t) (ga t) i + mv p F (be t) i = c t i))
  (E2 : locally t0 (fun t => forall j, (j < p)%nat -> rsum n (fun a => F a j * ga t a) = e j)).
Lemma mse_derive : is_derive (fun t => mse n (Rm t) (c t) (ga t)) t0 (- 2 * dot n c' (ga t0) + dot n (ga t0) (mv n dR (ga t0))).
Proof.
  set (gd := ga' ga t0). assert (Dg : forall i, (i < n)%nat -> is_derive (fun t => ga t i) t0 (gd i)) by (apply (ga_derive n p Rm dR F c c' e ga be t0 Sm Pd Inj DR Dc E1 E2)).
  unfold mse. eapply derive_eq.
  - apply derive_sum; [|apply derive_cst]. apply derive_sub; [|apply is_derive_scal; apply (derive_dot n ga c gd c'); assumption].
    apply (derive_dot n ga (fun t => mv n (Rm t) (ga t)) gd (fun i => mv n dR (ga t0) i + mv n (Rm t0) gd i)); [exact Dg|]. intros i Hi. apply derive_mv; [intros; apply DR; assumption|exact Dg].
  - match goal with |- ?a = ?b => change (@eq R a b) end. rewrite dot_plus_r. rewrite (dot_mv_sym n (Rm t0) (ga t0) gd (Sm t0)).
    pose proof (locally_singleton _ _ E1) as E1'. cbv beta in E1'.
    assert (Q : dot n gd (mv n (Rm t0) (ga t0)) = dot n gd (c t0)).
    { rewrite (dot_ext n gd (mv n (Rm t0) (ga t0)) gd (fun i => c t0 i - mv p F (be t0) i)) by (intros; try reflexivity; rewrite <- E1' by assumption; ring).
      rewrite dot_minus_r, (dot_sym n gd (mv p F _)). unfold gd. rewrite (kkt2_mv n p Rm dR F c c' e ga be t0 Sm Pd Inj DR Dc E1 E2). ring. }
    rewrite Q, (dot_sym n (ga t0) c'). ring.
Qed.
End MseD.

Section D.
Variables (qr : nat -> nat -> mat -> mat * mat) (rcond : nat -> mat -> R) (condF : nat -> nat -> mat -> R).
Variables (nx nt nc : nat) (pm pv nugget : R) (noise : vec) (X : nat -> vec) (y : vec).
Notation po := PConstant.
Notation p := 1%nat.
Notation Xn := (Xnorm nt X).
Notation F := (fun i j => fvec po nx (Xnorm nt X i) j).
Notation yn := (ynorm nt y).
Notation g := (GStd ActExp nc).
Notation rlm := (rl qr rcond condF g nx nt p Xn F yn (scale1 nt y) nugget noise (INR nt)).
Notation trn := (mgp_train qr rcond condF nx nt nc po pv nugget noise X y).
Notation mk := (mk qr rcond condF nx nt nc po pv nugget noise X y).
Hypotheses (HQ : qr_contract qr) (HR : rcond_contract rcond) (Hp : (p <= nt)%nat) (Hn : (1 <= nt)%nat).
Section Point.
Variables (th : vec) (v : R) (pr : par) (x : vec).
Hypothesis E : rlm th = Fit v pr.
Notation m := (mk th pr).
Notation r := (r_of m (x, None) None).
Notation f := (fvec po nx x).
Lemma okp : fit_ok nt 1 (R_of g nx nt Xn nugget noise th) F yn pr.
Proof. apply (rl_facts qr rcond condF g nx nt 1 Xn F yn (scale1 nt y) nugget noise (INR nt) HQ HR Hp th v pr E). Qed.
Definition EE : R := mse nt (R_of g nx nt Xn nugget noise th) r (wstar nt 1 pr r f).
Lemma EE_code : 1 - dot nt (mgp_rt m (x, None)) (mgp_rt m (x, None)) + dot 1 (mgp_u m (x, None)) (mgp_u m (x, None)) = EE.
Proof. apply (mse_code nt (R_of g nx nt Xn nugget noise th) F yn pr r f (R_of_sym g nx nt Xn nugget noise th) okp). Qed.
Lemma mse_clip : mgp_mse m (x, None) = if Rlt_dec (p_sigma2 pr * EE) 0 then 0 else p_sigma2 pr * EE.
Proof. rewrite <- EE_code. reflexivity. Qed.
End Point.
Section Dir.
Variables (theta : vec) (om : nat).
Hypotheses (Hk : (om < nx * nc)%nat) (Loc : locally (theta om) (fun t => exists v pr, rlm (upd theta om t) = Fit v pr)) (NT : not_trend nt 1 F yn).
Notation prt := (prt qr rcond condF g nx nt p Xn F yn (scale1 nt y) nugget noise (INR nt) theta om).
Notation pr0 := (prt (theta om)).
Notation Rth := (R_of g nx nt Xn nugget noise).
Notation dRk := (dR_of g nx nt Xn theta om).
Variable x : vec.
Notation f := (fvec po nx x).
Notation rr th := (r_of (mk th pr0) (x, None)).
Let rt_ (t : R) : vec := rr (upd theta om t) None.
Let wt (t : R) : vec := wstar nt 1 (prt t) (rt_ t) f.
Let mut (t : R) : vec := bsub 1 (p_G (prt t)) (fsub (tr (p_G (prt t))) (fun j => mv nt (tr (p_Ft (prt t))) (fsub (p_C (prt t)) (rt_ t) nt) j - f j) 1) 1.
Lemma ok0' : fit_ok nt 1 (Rth theta) F yn pr0.
Proof. apply (ok0 qr rcond condF g nx nt p Xn F yn (scale1 nt y) nugget noise (INR nt) HQ HR Hp theta om Loc). Qed.
Lemma okl : locally (theta om) (fun t => fit_ok nt 1 (Rth (upd theta om t)) F yn (prt t)).
Proof. apply (ok_loc qr rcond condF g nx nt p Xn F yn (scale1 nt y) nugget noise (INR nt) HQ HR Hp theta om Loc). Qed.
Lemma E_derive : is_derive (fun t => mse nt (Rth (upd theta om t)) (rt_ t) (wt t)) (theta om) (- 2 * dot nt (rr theta (Some om)) (wt (theta om)) + dot nt (wt (theta om)) (mv nt dRk (wt (theta om)))).
Proof.
  apply (mse_derive nt 1 (fun t => Rth (upd theta om t)) dRk F rt_ (rr theta (Some om)) f wt mut (theta om)).
  - intros t. apply R_of_sym.
  - generalize okl. apply filter_imp. intros t O. apply (fit_pd nt 1 _ F yn (prt t) (R_of_sym _ _ _ _ _ _ _) O).
  - apply (fit_inj nt 1 (Rth theta) F yn pr0 ok0').
  - intros i j Hi Hj. apply (dR_derive g nx nt Xn nugget noise theta om i j (th_ok nx nc theta) Hk Hi Hj).
  - intros i Hi. apply (r_derive qr rcond condF nx nt nc po pv nugget noise X y theta om Hk x i).
  - generalize okl. apply filter_imp. intros t O i Hi. unfold wt. rewrite (Rw_eq nt 1 (Rth (upd theta om t)) F yn (prt t) (R_of_sym _ _ _ _ _ _ _) O (rt_ t) f i Hi). fold (mut t). ring.
  - generalize okl. apply filter_imp. intros t O j Hj. apply (w_unbiased nt 1 (Rth (upd theta om t)) F yn (prt t) O (rt_ t) f j Hj).
Qed.
Lemma sigma2_t t v : rlm (upd theta om t) = Fit v (prt t) -> p_sigma2 (prt t) = SS nt yn (prt t) / INR nt * scale1 nt y ^ 2.
Proof. intros E. apply (rl_facts qr rcond condF g nx nt p Xn F yn (scale1 nt y) nugget noise (INR nt) HQ HR Hp _ _ _ E). Qed.
Lemma fitl : locally (theta om) (fun t => exists v, rlm (upd theta om t) = Fit v (prt t)).
Proof. apply (fit_loc qr rcond condF g nx nt p Xn F yn (scale1 nt y) nugget noise (INR nt) theta om Loc). Qed.
Lemma sigma2_derive : is_derive (fun t => p_sigma2 (prt t)) (theta om) (dsigma_of g nx nt p Xn F (scale1 nt y) pr0 theta om).
Proof.
  apply (is_derive_ext_loc (fun t => SS nt yn (prt t) * (/ INR nt * scale1 nt y ^ 2))).
  - generalize fitl. apply filter_imp. intros t (v & E). rewrite (sigma2_t t v E). match goal with |- ?a = ?b => change (@eq R a b) end. unfold Rdiv. ring.
  - eapply derive_eq.
    + pose proof (is_derive_scal_l _ (theta om) _ (/ INR nt * scale1 nt y ^ 2) (SS_derive qr rcond condF g nx nt p Xn F yn (scale1 nt y) nugget noise (INR nt) HQ HR Hp theta om (th_ok nx nc theta) Hk Loc)) as M. exact M.
    + rewrite (dsigma_form qr rcond condF g nx nt p Xn F yn (scale1 nt y) nugget noise (INR nt) HQ HR Hp theta om Loc om). unfold scal. cbn [AbsRing.sort]. match goal with |- ?a = ?b => change (@eq R a b) end. unfold Rdiv. cbn. unfold mult. cbn. ring.
Qed.
Lemma s2_pos : 0 < p_sigma2 pr0.
Proof.
  destruct (locally_singleton _ _ fitl) as [v E]. rewrite (sigma2_t _ _ E). assert (0 < INR nt) by (apply lt_0_INR; lia). apply Rmult_lt_0_compat; [apply Rdiv_lt_0_compat; [|assumption]|apply pow_lt, scale1_pos].
  apply (SS_pos nt 1 (Rth theta) F yn pr0 (R_of_sym _ _ _ _ _ _ _) ok0' NT).
Qed.
Lemma mk_par t th pr : r_of (mk th pr) (x, None) t = rr th t.
Proof. apply functional_extensionality. intros i. rewrite !r_kern. reflexivity. Qed.
Lemma mse_loc : locally (theta om) (fun t => mgp_mse (mk (upd theta om t) (prt t)) (x, None) = if Rlt_dec (p_sigma2 (prt t) * mse nt (Rth (upd theta om t)) (rt_ t) (wt t)) 0 then 0 else p_sigma2 (prt t) * mse nt (Rth (upd theta om t)) (rt_ t) (wt t)).
Proof. generalize fitl. apply filter_imp. intros t (v & E). rewrite (mse_clip _ _ _ x E). unfold EE. rewrite mk_par. reflexivity. Qed.
Lemma mse_hyper_derive : 0 < mgp_mse (mk theta pr0) (x, None) ->
  is_derive (fun t => mgp_mse (mk (upd theta om t) (prt t)) (x, None)) (theta om) (dmse_hyper (mk theta pr0) (x, None) om).
Proof.
  intros P. set (H := fun t => p_sigma2 (prt t) * mse nt (Rth (upd theta om t)) (rt_ t) (wt t)).
  assert (DH : is_derive H (theta om) (dsigma_of g nx nt p Xn F (scale1 nt y) pr0 theta om * mse nt (Rth (upd theta om (theta om))) (rt_ (theta om)) (wt (theta om)) + p_sigma2 pr0 * (- 2 * dot nt (rr theta (Some om)) (wt (theta om)) + dot nt (wt (theta om)) (mv nt dRk (wt (theta om)))))).
  { apply (derive_mul (fun t => p_sigma2 (prt t))); [apply sigma2_derive|apply E_derive]. }
  pose proof (locally_singleton _ _ mse_loc) as M0. cbv beta in M0. fold (H (theta om)) in M0. rewrite upd_self in M0.
  assert (HP : 0 < H (theta om)). { rewrite M0 in P. destruct (Rlt_dec (H (theta om)) 0); lra. }
  assert (MH : mgp_mse (mk theta pr0) (x, None) = H (theta om)) by (rewrite M0; destruct (Rlt_dec (H (theta om)) 0); lra).
  assert (HL : locally (theta om) (fun t => 0 < H t)).
  { assert (CH : continuous H (theta om)) by (apply (ex_derive_continuous (K := R_AbsRing) (V := R_NormedModule)); eexists; exact DH). apply (CH (fun s => 0 < s)). apply (open_gt 0). exact HP. }
  apply (is_derive_ext_loc H).
  - generalize (filter_and _ _ HL mse_loc). apply filter_imp. intros t [P' M]. rewrite M. fold (H t). destruct (Rlt_dec (H t) 0); [lra|reflexivity].
  - eapply derive_eq; [exact DH|]. match goal with |- ?a = ?b => change (@eq R a b) end. unfold dmse_hyper. cbv zeta. rewrite MH. unfold H at 1. cbn [Mgp_P2.mk g_nx g_nt g_po g_par g_dR g_dsigma n_regr]. rewrite upd_self.
    set (W := wt (theta om)). set (E0 := mse nt (Rth theta) (rt_ (theta om)) W).
    set (a := Rr nt pr0 (rr theta None)). set (b := RFGu nt pr0 (rr theta None) f).
    change (solve_triangular nt (tr (p_C pr0)) (mgp_rt (mk theta pr0) (x, None)) false) with a.
    match goal with |- context [mv 1 ?A (solve_triangular 1 (p_G pr0) (mgp_u (mk theta pr0) (x, None)) false)] => change (mv 1 A (solve_triangular 1 (p_G pr0) (mgp_u (mk theta pr0) (x, None)) false)) with b end.
    assert (EW : forall i, (i < nt)%nat -> W i = a i + b i).
    { intros i Hi. unfold W, wt, rt_. rewrite upd_self. symmetry. apply (w_code nt (Rth theta) F yn pr0 (rr theta None) f ok0' i Hi). }
    assert (Q1 : dot nt (rr theta (Some om)) W = dot nt (rr theta (Some om)) a + dot nt (rr theta (Some om)) b) by (rewrite <- dot_plus_r; apply dot_ext; [reflexivity|exact EW]).
    assert (Q2 : dot nt W (mv nt dRk W) = dot nt a (mv nt dRk a) + 2 * dot nt a (mv nt dRk b) + dot nt b (mv nt dRk b)).
    { rewrite (dot_ext nt W (mv nt dRk W) (fun i => a i + b i) (fun i => mv nt dRk a i + mv nt dRk b i)); [|exact EW|intros; rewrite <- mv_plus; apply mv_ext; [reflexivity|exact EW]].
      rewrite dot_plus_l, !dot_plus_r, (dot_mv_sym nt dRk b a (dR_sym g nx nt Xn theta om)). ring. }
    rewrite Q1, Q2. pose proof s2_pos. field. lra.
Qed.
End Dir.
End D.
