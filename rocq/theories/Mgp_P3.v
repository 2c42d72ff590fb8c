From Coq Require Import Reals Arith Bool List Lia Lra FunctionalExtensionality.
From Coquelicot Require Import Coquelicot.
From Verif Require Import RSum Mat Psd Psd2 Tri_M Tri_P Kernels_M Kernels_P Kernels_P2 Kernels_P3 Krg_M Krg_S Krg_P Krg_P2 Rbf_P Poly_P LikGrad_M LikGrad_S LikGrad_P1 LikGrad_P2 LikGrad_P3 LikGrad_P4 Mgp_M Mgp_P1 Mgp_P2.
Import ListNotations.
Open Scope list_scope.
Open Scope R_scope.

(** ** the weights of the code, for one trend function *)
Section W1.
Variables (nt : nat) (Rm F : mat) (y : vec) (pr : par) (r f : vec).
Hypotheses (Sy : msym nt Rm) (O : fit_ok nt 1 Rm F y pr).
Definition rtv : vec := fsub (p_C pr) r nt.
Definition uv : vec := bsub 1 (tr (p_G pr)) (fun j => f j - mv nt (tr (p_Ft pr)) rtv j) 1.
Definition Rr : vec := bsub nt (tr (p_C pr)) rtv nt.
Definition RFGu : vec := mv 1 (fun a j => bsub nt (tr (p_C pr)) (fun l => p_Ft pr l j) nt a) (bsub 1 (p_G pr) uv 1).
Let ub : vec := fsub (tr (p_G pr)) (fun j => mv nt (tr (p_Ft pr)) rtv j - f j) 1.
Lemma uv_eq : uv 0%nat = - ub 0%nat.
Proof. unfold uv, ub, bsub, fsub, upd, tr. cbn [Nat.sub Nat.eqb rsum]. unfold Rdiv. ring. Qed.
Lemma Gu_eq : bsub 1 (p_G pr) uv 1 0%nat = - bsub 1 (p_G pr) ub 1 0%nat.
Proof. unfold bsub, upd. cbn [Nat.sub Nat.eqb rsum]. rewrite uv_eq. unfold Rdiv. ring. Qed.
Lemma w_code i : (i < nt)%nat -> Rr i + RFGu i = wstar nt 1 pr r f i.
Proof.
  intros Hi. pose proof (chol_upper_tr _ _ _ (fo_C _ _ _ _ _ _ O)) as U. pose proof (chol_diag_tr _ _ _ (fo_C _ _ _ _ _ _ O)) as D.
  enough (H : forall i, (i < nt)%nat -> Rr i + RFGu i - wstar nt 1 pr r f i = 0) by (specialize (H i Hi); lra). clear i Hi.
  apply (upper_inj nt (tr (p_C pr)) U D (fun i => Rr i + RFGu i - wstar nt 1 pr r f i)). intros i Hi. rewrite mv_minus, mv_plus, (w_eq nt 1 Rm F y pr O r f i Hi).
  unfold Rr. rewrite (bsub_solves nt (tr (p_C pr)) rtv U D i Hi).
  assert (E : mv nt (tr (p_C pr)) RFGu i = mv 1 (p_Ft pr) (bsub 1 (p_G pr) uv 1) i).
  { unfold RFGu. rewrite <- mv_mm. apply mv_ext; [|reflexivity]. intros j Hj. apply (bsub_solves nt (tr (p_C pr)) (fun l => p_Ft pr l j) U D i Hi). }
  rewrite E. unfold mv at 1 2. cbn [rsum]. rewrite Gu_eq. fold rtv. fold ub. unfold rtv. ring.
Qed.
Lemma mse_code : 1 - dot nt rtv rtv + dot 1 uv uv = mse nt Rm r (wstar nt 1 pr r f).
Proof. rewrite (w_mse nt 1 Rm F y pr Sy O r f). fold rtv ub. f_equal. unfold dot. cbn [rsum]. rewrite uv_eq. ring. Qed.
End W1.

Section D.
Variables (qr : nat -> nat -> mat -> mat * mat) (rcond : nat -> mat -> R) (condF : nat -> nat -> mat -> R).
Variables (nx nt nc : nat) (po : poly) (pm pv nugget : R) (noise : vec) (X : nat -> vec) (y : vec).
Notation p := (n_regr po nx).
Notation Xn := (Xnorm nt X).
Notation F := (fun i j => fvec po nx (Xnorm nt X i) j).
Notation yn := (ynorm nt y).
Notation g := (GStd ActExp nc).
Notation rlm := (rl qr rcond condF g nx nt p Xn F yn (scale1 nt y) nugget noise (INR nt)).
Notation trn := (mgp_train qr rcond condF nx nt nc po pv nugget noise X y).
Notation mk := (mk qr rcond condF nx nt nc po pv nugget noise X y).
Hypotheses (HQ : qr_contract qr) (HR : rcond_contract rcond) (Hp : (p <= nt)%nat) (Hn : (1 <= nt)%nat).
Variables (theta : vec) (om : nat).
Hypotheses (Hk : (om < nx * nc)%nat) (Loc : locally (theta om) (fun t => exists v pr, rlm (upd theta om t) = Fit v pr)).
Notation prt := (prt qr rcond condF g nx nt p Xn F yn (scale1 nt y) nugget noise (INR nt) theta om).
Notation pr0 := (prt (theta om)).
Notation dga := (dga qr rcond condF g nx nt p Xn F yn (scale1 nt y) nugget noise (INR nt) theta om).
Notation dbe := (dbe qr rcond condF g nx nt p Xn F yn (scale1 nt y) nugget noise (INR nt) theta om).
Notation Rth := (R_of g nx nt Xn nugget noise).
Notation dRk := (dR_of g nx nt Xn theta om).
Variable x : vec.  (* normalised query *)
Notation rr th := (r_of (mk th pr0) (x, None)).
Lemma r_kern th pr i gr : r_of (mk th pr) (x, None) gr i = kernel ActExp nx nc th (fun j => x j - Xn i j) gr None.
Proof. unfold r_of, act_exp. cbn [Mgp_P2.mk g_nx g_nc g_theta g_Xn]. destruct gr; reflexivity. Qed.
Lemma r_derive i : is_derive (fun t => rr (upd theta om t) None i) (theta om) (rr theta (Some om) i).
Proof.
  rewrite r_kern. apply (is_derive_ext (fun t => kernel ActExp nx nc (upd theta om t) (fun j => x j - Xn i j) None None)); [intros t; rewrite r_kern; reflexivity|].
  apply (theta_grad_ok ActExp nx nc theta (fun j => x j - Xn i j) om Hk). congruence.
Qed.
Notation fx := (fvec po nx x).
Lemma mean_derive : is_derive (fun t => dot p fx (p_beta (prt t)) + dot nt (rr (upd theta om t) None) (p_gamma (prt t))) (theta om) (dy_hyper (mk theta pr0) (x, None) om).
Proof.
  eapply derive_eq.
  - apply derive_sum.
    + apply (derive_dot p (fun _ => fx) (fun t => p_beta (prt t)) (fun _ => 0) dbe); [intros; apply derive_cst|]. intros j Hj.
      apply (dbe_derive qr rcond condF g nx nt p Xn F yn (scale1 nt y) nugget noise (INR nt) HQ HR Hp theta om (th_ok nx nc theta) Hk Loc j Hj).
    + apply (derive_dot nt (fun t => rr (upd theta om t) None) (fun t => p_gamma (prt t)) (rr theta (Some om)) dga); [intros; apply r_derive|]. intros j Hj.
      apply (dga_derive qr rcond condF g nx nt p Xn F yn (scale1 nt y) nugget noise (INR nt) HQ HR Hp theta om (th_ok nx nc theta) Hk Loc j Hj).
  - match goal with |- ?a = ?b => change (@eq R a b) end. unfold dy_hyper. cbn [Mgp_P2.mk g_nx g_nt g_po g_par g_dbeta g_Rdg g_Rdmu f_of fst]. rewrite upd_self.
    rewrite (dot_sym p (fun _ => 0)), (dot_zero_r p _ (fun _ => 0)) by reflexivity.
    rewrite (dot_ext p _ dbe (f_of (mk theta pr0) (x, None)) (dbeta_of g nx nt p Xn pr0 theta om)) by (intros; try reflexivity; symmetry; apply (dbeta_k qr rcond condF g nx nt p Xn F yn (scale1 nt y) nugget noise (INR nt) HQ HR Hp theta om (th_ok nx nc theta) Hk Loc); assumption).
    rewrite (dot_ext nt (rr theta None) dga (rr theta None) (fun i => - (Rinv_dR_gamma_of g nx nt Xn pr0 theta om i + Rinv_dmu_of g nx nt p Xn F pr0 theta om i))); [rewrite dot_opp_r; ring|reflexivity|].
    intros i Hi. pose proof (va_vc qr rcond condF g nx nt p Xn F yn (scale1 nt y) nugget noise (INR nt) HQ HR Hp theta om (th_ok nx nc theta) Hk Loc i Hi) as E. lra.
Qed.
End D.
