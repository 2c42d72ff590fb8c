From Coq Require Import Reals Arith Bool List Lia Lra FunctionalExtensionality.
From Coquelicot Require Import Coquelicot.
From Verif Require Import RSum Mat Psd Psd2 Tri_M Tri_P Kernels_M Kernels_P Kernels_P2 Kernels_P3 Krg_M Krg_S Krg_P Krg_P2 Rbf_P Poly_P LikGrad_M LikGrad_S LikGrad_P1 LikGrad_P2.
Import ListNotations.
Open Scope list_scope.
Open Scope R_scope.

Lemma upd_self (x : vec) k : upd x k (x k) = x.
Proof. apply functional_extensionality. intros j. apply upd_same. Qed.
Lemma ln10_pos : 0 < ln 10.
Proof. rewrite <- ln_1. apply ln_increasing; lra. Qed.
Lemma ln_rprod n f : (forall i, (i < n)%nat -> 0 < f i) -> ln (rprod n f) = rsum n (fun i => ln (f i)).
Proof.
  intros H. rewrite (rprod_ext n f (fun i => exp (ln (f i)))) by (intros; symmetry; apply exp_ln; apply H; assumption). rewrite rprod_exp. apply ln_exp.
Qed.
Definition dpar : par := {| p_sigma2 := 0; p_beta := fun _ => 0; p_gamma := fun _ => 0; p_C := fun _ _ => 0; p_Ft := fun _ _ => 0; p_G := fun _ _ => 0; p_Q := fun _ _ => 0 |}.
Section FitFacts.
Variables (nt p : nat) (Rm F : mat) (y : vec) (pr : par).
Hypotheses (Sy : msym nt Rm) (O : fit_ok nt p Rm F y pr).
Lemma fit_inj : injective nt p F.
Proof.
  intros b Hb. apply (upper_inj p (p_G pr) (fo_G _ _ _ _ _ _ O) (fo_D _ _ _ _ _ _ O)). apply (dot_self_zero p (mv p (p_G pr) b)).
  rewrite <- (Ft_form nt p Rm F y pr O b b). apply dot_zero_r.
  apply (lower_inj nt (p_C pr) (chol_lower _ _ _ (fo_C _ _ _ _ _ _ O)) (chol_diag _ _ _ (fo_C _ _ _ _ _ _ O))). intros i Hi. rewrite (C_F nt p Rm F y pr O b i Hi). apply Hb. exact Hi.
Qed.
Lemma fit_pd : mpd nt Rm.
Proof. apply (chol_pd nt Rm (p_C pr) Sy (fo_C _ _ _ _ _ _ O)). Qed.
Lemma fit_R i : (i < nt)%nat -> mv nt Rm (p_gamma pr) i + mv p F (p_beta pr) i = y i.
Proof. intros Hi. rewrite (R_gamma nt p Rm F y pr Sy O i Hi). ring. Qed.
Lemma fit_F j : (j < p)%nat -> rsum nt (fun a => F a j * p_gamma pr a) = 0.
Proof.
  intros Hj. rewrite <- (F_gamma nt p Rm F y pr O (fun l => if Nat.eqb l j then 1 else 0)). unfold dot. apply rsum_ext. intros a Ha. f_equal. unfold mv.
  rewrite (rsum_ext p _ (fun l => if Nat.eqb l j then F a l else 0)) by (intros l _; destruct (Nat.eqb l j); ring). symmetry. apply (rsum_single p (fun l => F a l) j Hj).
Qed.
Definition SS : R := dot nt (p_gamma pr) y.
Lemma SS_rho : SS = dot nt (rho_of nt p y pr) (rho_of nt p y pr).
Proof. rewrite <- (gamma_rho nt p Rm F y pr Sy O). rewrite dot_minus_r. rewrite (dot_sym nt (p_gamma pr) (mv p F _)), (F_gamma nt p Rm F y pr O). unfold SS. ring. Qed.
Lemma SS_form : SS = dot nt (p_gamma pr) (mv nt Rm (p_gamma pr)).
Proof.
  rewrite (dot_ext nt (p_gamma pr) (mv nt Rm (p_gamma pr)) (p_gamma pr) (fun i => y i - mv p F (p_beta pr) i)) by (intros; try reflexivity; apply (R_gamma nt p Rm F y pr Sy O); assumption).
  rewrite dot_minus_r, (dot_sym nt (p_gamma pr) (mv p F _)), (F_gamma nt p Rm F y pr O). unfold SS. ring.
Qed.
Lemma SS_pos : not_trend nt p F y -> 0 < SS.
Proof.
  intros N. rewrite SS_form. apply fit_pd. destruct (nonzero_dec nt (p_gamma pr)) as [W|W]; [exact W|]. exfalso. apply N. exists (p_beta pr). intros i Hi. rewrite <- (fit_R i Hi). rewrite mv_zero by exact W. ring.
Qed.
(** the code's solution for the derivative of beta *)
Lemma beta_solve (z b : vec) (c : vec) : (forall i, (i < nt)%nat -> mv nt Rm z i + mv p F b i = c i) -> (forall j, (j < p)%nat -> rsum nt (fun a => F a j * z a) = 0) ->
  forall j, (j < p)%nat -> bsub p (p_G pr) (mv nt (tr (p_Q pr)) (fsub (p_C pr) c nt)) p j = b j.
Proof.
  intros H1 H2. pose proof (fo_C _ _ _ _ _ _ O) as FC. pose proof (chol_lower _ _ _ FC) as Lc. pose proof (chol_diag _ _ _ FC) as Dc.
  assert (E : forall i, (i < nt)%nat -> fsub (p_C pr) c nt i = mv nt (tr (p_C pr)) z i + mv p (p_Ft pr) b i).
  { intros i Hi. enough (fsub (p_C pr) c nt i - (mv nt (tr (p_C pr)) z i + mv p (p_Ft pr) b i) = 0) by lra.
    apply (lower_inj nt (p_C pr) Lc Dc (fun i => fsub (p_C pr) c nt i - (mv nt (tr (p_C pr)) z i + mv p (p_Ft pr) b i))); [|exact Hi]. intros a Ha.
    rewrite mv_minus, mv_plus, (fsub_solves nt (p_C pr) c Lc Dc a Ha), (chol_mv nt Rm (p_C pr) z Sy FC a Ha), (C_F nt p Rm F y pr O b a Ha). rewrite <- (H1 a Ha). ring. }
  assert (Zq : forall j, (j < p)%nat -> mv nt (tr (p_Q pr)) (mv nt (tr (p_C pr)) z) j = 0).
  { apply (lower_inj p (tr (p_G pr))); [intros a b' Ha Hb; apply (fo_G _ _ _ _ _ _ O); assumption|intros a Ha; apply (fo_D _ _ _ _ _ _ O a Ha)|].
    intros j Hj. rewrite <- (H2 j Hj). rewrite (F_w nt p Rm F y pr O z j Hj).
    rewrite (rsum_ext nt _ (fun a => rsum p (fun k => p_Q pr a k * p_G pr k j) * mv nt (tr (p_C pr)) z a)) by (intros a Ha; rewrite (fo_QG _ _ _ _ _ _ O a j Ha Hj); reflexivity).
    unfold mv at 1. rewrite (rsum_ext nt _ (fun a => rsum p (fun k => p_G pr k j * (p_Q pr a k * mv nt (tr (p_C pr)) z a)))) by (intros; rewrite <- rsum_scal_r; apply rsum_ext; intros; ring).
    rewrite rsum_swap. apply rsum_ext. intros k Hk. rewrite rsum_scal_l. reflexivity. }
  intros j Hj. enough (bsub p (p_G pr) (mv nt (tr (p_Q pr)) (fsub (p_C pr) c nt)) p j - b j = 0) by lra.
  apply (upper_inj p (p_G pr) (fo_G _ _ _ _ _ _ O) (fo_D _ _ _ _ _ _ O) (fun j => bsub p (p_G pr) (mv nt (tr (p_Q pr)) (fsub (p_C pr) c nt)) p j - b j)); [|exact Hj]. intros k Hk.
  rewrite mv_minus, (bsub_solves p (p_G pr) _ (fo_G _ _ _ _ _ _ O) (fo_D _ _ _ _ _ _ O) k Hk).
  rewrite (mv_ext nt (tr (p_Q pr)) (tr (p_Q pr)) (fsub (p_C pr) c nt) (fun i => mv nt (tr (p_C pr)) z i + mv p (p_Ft pr) b i) k) by (intros; try reflexivity; apply E; assumption).
  rewrite mv_plus, (Zq k Hk).
  assert (Q : mv nt (tr (p_Q pr)) (mv p (p_Ft pr) b) k = mv p (p_G pr) b k); [|lra].
  rewrite (mv_ext nt (tr (p_Q pr)) (tr (p_Q pr)) (mv p (p_Ft pr) b) (mv p (p_Q pr) (mv p (p_G pr) b)) k); [|reflexivity|].
  - rewrite <- mv_mm. unfold mv at 1. rewrite (rsum_ext p _ (fun j => if Nat.eqb j k then mv p (p_G pr) b j else 0)); [apply (rsum_single p (mv p (p_G pr) b) k Hk)|].
    intros l Hl. unfold mm, tr. rewrite (fo_Q _ _ _ _ _ _ O) by assumption. rewrite (Nat.eqb_sym l k). destruct (Nat.eqb k l); ring.
  - intros a Ha. unfold mv. rewrite (rsum_ext p _ (fun l => rsum p (fun k => p_Q pr a k * (p_G pr k l * b l)))).
    + rewrite rsum_swap. apply rsum_ext. intros m Hm. rewrite rsum_scal_l. reflexivity.
    + intros l Hl. rewrite (fo_QG _ _ _ _ _ _ O) by assumption. rewrite <- rsum_scal_r. apply rsum_ext. intros; ring.
Qed.
Lemma solve_R_ok M b : forall i, (i < nt)%nat -> mv nt Rm (fun a => solve_R nt (p_C pr) M a b) i = M i b.
Proof. intros i Hi. apply (chol_solve nt Rm (p_C pr) (fun l => M l b) Sy (fo_C _ _ _ _ _ _ O) i Hi). Qed.
Lemma solve_vec_ok c : forall i, (i < nt)%nat -> mv nt Rm (bsub nt (tr (p_C pr)) (fsub (p_C pr) c nt) nt) i = c i.
Proof. intros i Hi. apply (chol_solve nt Rm (p_C pr) c Sy (fo_C _ _ _ _ _ _ O) i Hi). Qed.
End FitFacts.

Section G.
Variables (qr : nat -> nat -> mat -> mat * mat) (rcond : nat -> mat -> R) (condF : nat -> nat -> mat -> R).
Variables (g : kclass) (nx nt p : nat) (X : nat -> vec) (F : mat) (y : vec) (ystd nugget : R) (noise : vec) (dof : R).
Hypotheses (HQ : qr_contract qr) (HR : rcond_contract rcond) (Hp : (p <= nt)%nat).
Notation Rth := (R_of g nx nt X nugget noise).
Notation rlt := (rl qr rcond condF g nx nt p X F y ystd nugget noise dof).
Lemma R_of_sym th : msym nt (Rth th).
Proof. apply fill_sym. intros i j _ _. rewrite (Nat.eqb_sym j i). destruct (Nat.eqb_spec i j) as [-> | N]; [reflexivity|ring]. Qed.
Lemma dR_sym th i : msym nt (dR_of g nx nt X th i).
Proof. apply fill_sym. intros a b _ _. reflexivity. Qed.
Lemma ddR_sym th i j : msym nt (ddR_of g nx nt X th i j).
Proof. apply fill_sym. intros a b _ _. reflexivity. Qed.
Lemma dist_nonneg D j : g_corr g <> ActExp -> 0 <= g_dist g nx D j.
Proof.
  intros N. destruct g as [c ns|c ncomp co]; cbn [g_dist g_corr] in *.
  - unfold comp_dist. destruct c; try apply Rabs_pos; [apply pow2_ge_0|congruence].
  - unfold comp_dist_pls. destruct c; apply rsum_nonneg; intros; apply Rmult_le_pos; try apply Rabs_pos; apply pow2_ge_0.
Qed.
Lemma n_theta_eq i : (i < n_theta g nx)%nat -> (i < match g_corr g with ActExp => g_cols g nx * g_ns g | _ => g_cols g nx end)%nat.
Proof. intros H. exact H. Qed.
Lemma dR_derive th k i j : theta_ok g nx th -> (k < n_theta g nx)%nat -> (i < nt)%nat -> (j < nt)%nat -> is_partial (fun th => Rth th i j) th k (dR_of g nx nt X th k i j).
Proof.
  intros T Hk Hi Hj. unfold is_partial, R_of, dR_of. rewrite (fill_spec nt X _ _ i j Hi Hj).
  apply (is_derive_ext (fun t => if Nat.eqb i j then (if Nat.eqb i j then 1 else 0) * (1 + nugget + noise j) else kern g nx nt X (upd th k t) None None (row_of nt i j))); [intros t; rewrite (fill_spec nt X _ _ i j Hi Hj); reflexivity|].
  destruct (Nat.eqb i j); [apply derive_cst|]. unfold kern.
  apply (theta_grad_ok (g_corr g) (g_cols g nx) (g_ns g) th (D_row g nx nt X (row_of nt i j)) k (n_theta_eq k Hk)).
  intros N l Hl. split; [apply dist_nonneg; exact N|apply T; assumption].
Qed.
Lemma ddR_derive th om eta i j : theta_ok g nx th -> (om < n_theta g nx)%nat -> (eta < n_theta g nx)%nat -> (i < nt)%nat -> (j < nt)%nat ->
  is_partial (fun th => dR_of g nx nt X th om i j) th eta (ddR_of g nx nt X th om eta i j).
Proof.
  intros T Ho Hk Hi Hj. unfold is_partial, dR_of, ddR_of. rewrite (fill_spec nt X _ _ i j Hi Hj).
  apply (is_derive_ext (fun t => if Nat.eqb i j then 0 else kern g nx nt X (upd th eta t) (Some om) None (row_of nt i j))); [intros t; rewrite (fill_spec nt X _ _ i j Hi Hj); reflexivity|].
  destruct (Nat.eqb i j); [apply derive_cst|]. unfold kern.
  apply (theta_hess_ok (g_corr g) (g_cols g nx) (g_ns g) th (D_row g nx nt X (row_of nt i j)) om eta (n_theta_eq om Ho) (n_theta_eq eta Hk)).
  intros N l Hl. split; [apply dist_nonneg; exact N|apply T; assumption].
Qed.
Lemma rl_facts th v pr : rlt th = Fit v pr -> fit_ok nt p (Rth th) F y pr /\ cholesky nt (Rth th) = Some (p_C pr) /\ p_sigma2 pr = SS nt y pr / dof * ystd ^ 2 /\
  v = - dof * log10 (SS nt y pr / dof) - INR nt * log10 (rprod nt (fun i => Rpower (p_C pr i i) (2 / INR nt))).
Proof.
  intros E. unfold rl in E. destruct (fit_facts qr rcond condF nt p dof _ F y ystd v pr HQ HR Hp (R_of_sym th) E) as [O S2]. split; [exact O|].
  rewrite (SS_rho nt p (Rth th) F y pr (R_of_sym th) O). split; [|split; [exact S2|]].
  - unfold reduced_likelihood in E. destruct (cholesky nt (Rth th)) as [C|]; [|discriminate]. cbv zeta in E. destruct (qr nt p _) as [Q G]. destruct (Rlt_dec _ _); [destruct (Rlt_dec _ _); discriminate|]. injection E as _ <-. reflexivity.
  - clear S2 O. unfold reduced_likelihood in E. destruct (cholesky nt (Rth th)) as [C|]; [|discriminate]. cbv zeta in E. destruct (qr nt p _) as [Q G]. destruct (Rlt_dec _ _); [destruct (Rlt_dec _ _); discriminate|]. injection E as <- <-. reflexivity.
Qed.
Hypotheses (Hn : (1 <= nt)%nat) (Hd : 0 < dof) (Hy : ystd <> 0) (NT : not_trend nt p F y).
Lemma INRnt : INR nt <> 0.
Proof. apply not_0_INR. lia. Qed.
Lemma log10_det C : (forall i, (i < nt)%nat -> 0 < C i i) -> INR nt * log10 (rprod nt (fun i => Rpower (C i i) (2 / INR nt))) = rsum nt (fun i => 2 * ln (C i i)) / ln 10.
Proof.
  intros H. unfold log10. rewrite ln_rprod by (intros; apply exp_pos). pose proof ln10_pos. pose proof INRnt.
  rewrite (rsum_ext nt (fun i => ln (Rpower (C i i) (2 / INR nt))) (fun i => / INR nt * (2 * ln (C i i)))) by (intros; unfold Rpower; rewrite ln_exp; field; assumption).
  rewrite rsum_scal_l. field. split; [lra|assumption].
Qed.
(** the gradient entry in closed form *)
Lemma dmu_zero th v pr i : rlt th = Fit v pr -> dot nt (dmu_of g nx nt p X F pr th i) (p_gamma pr) = 0.
Proof. intros E. destruct (rl_facts th v pr E) as (O & _). apply (F_gamma nt p (Rth th) F y pr O). Qed.
Lemma grad_form th v pr i : rlt th = Fit v pr ->
  grad_of g nx nt p X F ystd pr th i = - (dof * (- dot nt (p_gamma pr) (mv nt (dR_of g nx nt X th i) (p_gamma pr))) / SS nt y pr + trace nt (tr_of g nx nt X pr th i)) / ln 10.
Proof.
  intros E. destruct (rl_facts th v pr E) as (O & _ & S2 & _). pose proof (SS_pos nt p (Rth th) F y pr (R_of_sym th) O NT) as P. unfold grad_of, dsigma_of. cbv zeta. rewrite (dot_sym nt (p_gamma pr) (dmu_of g nx nt p X F pr th i)), (dmu_zero th v pr i E), S2.
  pose proof ln10_pos. pose proof INRnt. field. repeat split; try assumption; lra.
Qed.
Section Dir.
Variables (theta : vec) (k : nat).
Hypotheses (T : theta_ok g nx theta) (Hk : (k < n_theta g nx)%nat) (Loc : locally (theta k) (fun t => exists v pr, rlt (upd theta k t) = Fit v pr)).
Definition prt (t : R) : par := match rlt (upd theta k t) with Fit _ pr => pr | _ => dpar end.
Notation Rt := (fun t => Rth (upd theta k t)).
Lemma fit_loc : locally (theta k) (fun t => exists v, rlt (upd theta k t) = Fit v (prt t)).
Proof. generalize Loc. apply filter_imp. intros t (v & pr & E). exists v. unfold prt. rewrite E. reflexivity. Qed.
Lemma ok_loc : locally (theta k) (fun t => fit_ok nt p (Rt t) F y (prt t)).
Proof. generalize fit_loc. apply filter_imp. intros t (v & E). apply (rl_facts _ _ _ E). Qed.
Lemma pd_loc : locally (theta k) (fun t => mpd nt (Rt t)).
Proof. generalize ok_loc. apply filter_imp. intros t O. apply (fit_pd nt p (Rt t) F y (prt t) (R_of_sym _) O). Qed.
Lemma Rt_derive i j : (i < nt)%nat -> (j < nt)%nat -> is_derive (fun t => Rt t i j) (theta k) (dR_of g nx nt X theta k i j).
Proof. intros Hi Hj. apply (dR_derive theta k i j T Hk Hi Hj). Qed.
Lemma E1_loc : locally (theta k) (fun t => forall i, (i < nt)%nat -> mv nt (Rt t) (p_gamma (prt t)) i + mv p F (p_beta (prt t)) i = y i).
Proof. generalize ok_loc. apply filter_imp. intros t O i Hi. apply (fit_R nt p (Rt t) F y (prt t) (R_of_sym _) O i Hi). Qed.
Lemma E2_loc : locally (theta k) (fun t => forall j, (j < p)%nat -> rsum nt (fun a => F a j * p_gamma (prt t) a) = 0).
Proof. generalize ok_loc. apply filter_imp. intros t O j Hj. apply (fit_F nt p (Rt t) F y (prt t) O j Hj). Qed.
Lemma fit0 : exists v, rlt theta = Fit v (prt (theta k)).
Proof. destruct (locally_singleton _ _ fit_loc) as [v E]. exists v. rewrite <- E, upd_self. reflexivity. Qed.
Lemma ok0 : fit_ok nt p (Rth theta) F y (prt (theta k)).
Proof. pose proof (locally_singleton _ _ ok_loc) as O. cbv beta in O. rewrite upd_self in O. exact O. Qed.
Definition dga : vec := ga' (fun t => p_gamma (prt t)) (theta k).
Definition dbe : vec := be' (fun t => p_beta (prt t)) (theta k).
Notation pr0 := (prt (theta k)).
Notation dRk := (dR_of g nx nt X theta k).
Lemma dga_derive i : (i < nt)%nat -> is_derive (fun t => p_gamma (prt t) i) (theta k) (dga i).
Proof.
  apply (ga_derive nt p Rt dRk F (fun _ => y) (fun _ => 0) (fun _ => 0) (fun t => p_gamma (prt t)) (fun t => p_beta (prt t)) (theta k) (fun t => R_of_sym _) pd_loc (fit_inj _ _ _ _ _ _ ok0) Rt_derive (fun i _ => derive_cst _ _) E1_loc E2_loc).
Qed.
Lemma dbe_derive j : (j < p)%nat -> is_derive (fun t => p_beta (prt t) j) (theta k) (dbe j).
Proof.
  apply (be_derive nt p Rt dRk F (fun _ => y) (fun _ => 0) (fun _ => 0) (fun t => p_gamma (prt t)) (fun t => p_beta (prt t)) (theta k) (fun t => R_of_sym _) pd_loc (fit_inj _ _ _ _ _ _ ok0) Rt_derive (fun i _ => derive_cst _ _) E1_loc E2_loc).
Qed.
Lemma dkkt1 i : (i < nt)%nat -> mv nt (Rth theta) dga i + mv p F dbe i = - mv nt dRk (p_gamma pr0) i.
Proof.
  intros Hi. pose proof (kkt1 nt p Rt dRk F (fun _ => y) (fun _ => 0) (fun _ => 0) (fun t => p_gamma (prt t)) (fun t => p_beta (prt t)) (theta k) (fun t => R_of_sym _) pd_loc (fit_inj _ _ _ _ _ _ ok0) Rt_derive (fun i _ => derive_cst _ _) E1_loc E2_loc i Hi) as E.
  cbv beta in E. rewrite upd_self in E. unfold dga, dbe. lra.
Qed.
Lemma dkkt2 j : (j < p)%nat -> rsum nt (fun a => F a j * dga a) = 0.
Proof. apply (kkt2 nt p Rt dRk F (fun _ => y) (fun _ => 0) (fun _ => 0) (fun t => p_gamma (prt t)) (fun t => p_beta (prt t)) (theta k) (fun t => R_of_sym _) pd_loc (fit_inj _ _ _ _ _ _ ok0) Rt_derive (fun i _ => derive_cst _ _) E1_loc E2_loc). Qed.
Lemma dkkt2_mv b : dot nt (mv p F b) dga = 0.
Proof. rewrite dot_mv_tr. apply dot_zero_r. intros j Hj. apply (dkkt2 j Hj). Qed.
Lemma SS_derive : is_derive (fun t => SS nt y (prt t)) (theta k) (- dot nt (p_gamma pr0) (mv nt dRk (p_gamma pr0))).
Proof.
  unfold SS. eapply derive_eq.
  - apply (derive_dot nt (fun t => p_gamma (prt t)) (fun _ => y) dga (fun _ => 0)); [intros; apply dga_derive; assumption|intros; apply derive_cst].
  - rewrite (dot_zero_r nt _ (fun _ => 0)) by reflexivity. rewrite Rplus_0_r.
    rewrite (dot_ext nt dga y dga (fun i => mv nt (Rth theta) (p_gamma pr0) i + mv p F (p_beta pr0) i)) by (intros; try reflexivity; symmetry; apply (fit_R nt p (Rth theta) F y pr0 (R_of_sym _) ok0); assumption).
    rewrite dot_plus_r, (dot_sym nt dga (mv p F _)), dkkt2_mv, Rplus_0_r. rewrite (dot_mv_sym nt (Rth theta) _ _ (R_of_sym theta)).
    rewrite (dot_ext nt (p_gamma pr0) (mv nt (Rth theta) dga) (p_gamma pr0) (fun i => - mv nt dRk (p_gamma pr0) i - mv p F dbe i)) by (intros; try reflexivity; rewrite <- dkkt1 by assumption; ring).
    rewrite dot_minus_r, dot_opp_r, (dot_sym nt _ (mv p F dbe)), (F_gamma nt p (Rth theta) F y pr0 ok0). match goal with |- ?a = ?b => change (@eq R a b) end. ring.
Qed.
Lemma logdet : is_derive (fun t => rsum nt (fun i => 2 * ln (p_C (prt t) i i))) (theta k) (trace nt (tr_of g nx nt X pr0 theta k)).
Proof.
  destruct fit0 as [v0 E0]. destruct (rl_facts _ _ _ E0) as (O & EC & _).
  apply (is_derive_ext_loc (fun t => rsum nt (fun i => 2 * ln (cholf nt (Rt t) i i)))).
  - generalize fit_loc. apply filter_imp. intros t (v & E). destruct (rl_facts _ _ _ E) as (_ & EC' & _). rewrite (cholf_eq _ _ _ EC'). reflexivity.
  - assert (EC' : cholesky nt (Rt (theta k)) = Some (p_C pr0)) by (rewrite upd_self; exact EC).
    apply (logdet_derive nt Rt dRk (theta k) (p_C pr0) (fun t => R_of_sym _) EC' pd_loc Rt_derive).
    intros i b Hi Hb. cbv beta. rewrite upd_self. apply (solve_R_ok nt p (Rth theta) F y pr0 (R_of_sym _) ok0 (dR_of g nx nt X theta k) b i Hi).
Qed.
Lemma SS0_pos : 0 < SS nt y pr0.
Proof. apply (SS_pos nt p (Rth theta) F y pr0 (R_of_sym _) ok0 NT). Qed.
Lemma gradient_ok (v : vec -> R) : locally (theta k) (fun t => exists pr, rlt (upd theta k t) = Fit (v (upd theta k t)) pr) ->
  exists gr, rl_gradient qr rcond condF g nx nt p X F y ystd nugget noise dof theta k = Some gr /\ is_partial v theta k gr.
Proof.
  intros Lv. destruct fit0 as [v0 E0]. exists (grad_of g nx nt p X F ystd pr0 theta k). unfold rl_gradient. rewrite E0. split; [reflexivity|]. rewrite (grad_form theta v0 pr0 k E0). unfold is_partial.
  apply (is_derive_ext_loc (fun t => - dof / ln 10 * ln (SS nt y (prt t) / dof) - rsum nt (fun i => 2 * ln (p_C (prt t) i i)) * / ln 10)).
  - generalize (filter_and _ _ Lv fit_loc). apply filter_imp. intros t ((pr & E) & (v' & E')). rewrite E in E'. injection E' as Ev Ep. rewrite Ep in E. destruct (rl_facts _ _ _ E) as (O & _ & _ & V). rewrite V, log10_det.
    + unfold log10. match goal with |- ?a = ?b => change (@eq R a b) end. field. pose proof ln10_pos; lra.
    + intros i Hi. apply (cf_pos _ _ _ (fo_C _ _ _ _ _ _ O) i Hi).
  - pose proof SS0_pos as P. eapply derive_eq.
    + apply derive_sub.
      * apply is_derive_scal. apply (is_derive_comp (K := R_AbsRing) (V := R_NormedModule) ln (fun t => SS nt y (prt t) / dof) (theta k) (/ (SS nt y pr0 / dof)) (- dot nt (p_gamma pr0) (mv nt dRk (p_gamma pr0)) / dof)); [apply is_derive_ln; apply Rdiv_lt_0_compat; assumption|].
        pose proof (is_derive_scal_l _ (theta k) _ (/ dof) SS_derive) as M. exact M.
      * pose proof (is_derive_scal_l _ (theta k) _ (/ ln 10) logdet) as M. exact M.
    + unfold scal. cbn. unfold mult. cbn. match goal with |- ?a = ?b => change (@eq R a b) end. pose proof ln10_pos. field. repeat split; lra.
Qed.
(** ** the Hessian: derivative in direction k of the gradient entry om *)
Section Hess.
Variable om : nat.
Hypotheses (Ho : (om < n_theta g nx)%nat) (Dof : dof = INR nt).
Notation dRom := (dR_of g nx nt X theta om).
Notation ddR := (ddR_of g nx nt X theta om k).
Definition Tom (t : R) : mat := tr_of g nx nt X (prt t) (upd theta k t) om.
Lemma Tom_eq : locally (theta k) (fun t => forall b i, (i < nt)%nat -> mv nt (Rt t) (fun a => Tom t a b) i = dR_of g nx nt X (upd theta k t) om i b).
Proof. generalize ok_loc. apply filter_imp. intros t O b i Hi. apply (solve_R_ok nt p (Rt t) F y (prt t) (R_of_sym _) O (dR_of g nx nt X (upd theta k t) om) b i Hi). Qed.
Lemma dRom_derive i j : (i < nt)%nat -> (j < nt)%nat -> is_derive (fun t => dR_of g nx nt X (upd theta k t) om i j) (theta k) (ddR i j).
Proof. intros Hi Hj. apply (ddR_derive theta om k i j T Ho Hk Hi Hj). Qed.
Lemma Tom_ex a b : (a < nt)%nat -> (b < nt)%nat -> ex_derive (fun t => Tom t a b) (theta k).
Proof.
  intros Ha Hb. apply (spd_solve_ex nt Rt (fun t i => dR_of g nx nt X (upd theta k t) om i b) (fun t a => Tom t a b) (theta k) (fun t => R_of_sym _) pd_loc); [| | |exact Ha].
  - intros i j Hi Hj. eexists. apply Rt_derive; assumption.
  - intros i Hi. eexists. apply dRom_derive; assumption.
  - generalize Tom_eq. apply filter_imp. intros t E i Hi. apply E. exact Hi.
Qed.
Definition dTom : mat := fun a b => Derive (fun t => Tom t a b) (theta k).
Lemma dTom_derive a b : (a < nt)%nat -> (b < nt)%nat -> is_derive (fun t => Tom t a b) (theta k) (dTom a b).
Proof. intros Ha Hb. apply ex_is. apply Tom_ex; assumption. Qed.
Lemma dTom_eq i b : (i < nt)%nat -> (b < nt)%nat -> mv nt (Rth theta) (fun a => dTom a b) i = ddR i b - mv nt dRk (fun a => Tom (theta k) a b) i.
Proof.
  intros Hi Hb. enough (E : mv nt dRk (fun a => Tom (theta k) a b) i + mv nt (Rth theta) (fun a => dTom a b) i = ddR i b) by lra.
  apply (derive_unique (fun t => dR_of g nx nt X (upd theta k t) om i b) (theta k)); [|apply dRom_derive; assumption].
  apply (is_derive_ext_loc (fun t => mv nt (Rt t) (fun a => Tom t a b) i)); [generalize Tom_eq; apply filter_imp; intros t E; apply E; exact Hi|].
  pose proof (derive_mv nt Rt dRk (fun t a => Tom t a b) (fun a => dTom a b) (theta k) i) as D. cbv beta in D. rewrite upd_self in D. apply D; intros; [apply Rt_derive|apply dTom_derive]; assumption.
Qed.
Lemma dTom_trace : trace nt dTom = trace nt (solve_R nt (p_C pr0) ddR) - trace nt (mm nt (tr_of g nx nt X pr0 theta k) (tr_of g nx nt X pr0 theta om)).
Proof.
  unfold trace. rewrite <- rsum_minus. apply rsum_ext. intros b Hb.
  apply (mpd_unique nt (Rth theta) (fun a => dTom a b) (fun a => solve_R nt (p_C pr0) ddR a b - mm nt (tr_of g nx nt X pr0 theta k) (tr_of g nx nt X pr0 theta om) a b) (fit_pd _ _ _ _ _ _ (R_of_sym _) ok0)); [|exact Hb].
  intros i Hi. rewrite dTom_eq, mv_minus by assumption. rewrite (solve_R_ok nt p (Rth theta) F y pr0 (R_of_sym _) ok0 ddR b i Hi). f_equal.
  assert (ET : Tom (theta k) = tr_of g nx nt X pr0 theta om) by (unfold Tom; rewrite upd_self; reflexivity). rewrite ET.
  change (fun a => mm nt (tr_of g nx nt X pr0 theta k) (tr_of g nx nt X pr0 theta om) a b) with (mv nt (tr_of g nx nt X pr0 theta k) (fun c => tr_of g nx nt X pr0 theta om c b)).
  rewrite <- mv_mm. apply mv_ext; [|reflexivity]. intros c Hc. symmetry. apply (solve_R_ok nt p (Rth theta) F y pr0 (R_of_sym _) ok0 (dR_of g nx nt X theta k) c i Hi).
Qed.
Definition NN (t : R) : R := dot nt (p_gamma (prt t)) (mv nt (dR_of g nx nt X (upd theta k t) om) (p_gamma (prt t))).
Lemma NN0 : NN (theta k) = dot nt (p_gamma pr0) (mv nt dRom (p_gamma pr0)).
Proof. unfold NN. rewrite upd_self. reflexivity. Qed.
Lemma NN_derive : is_derive NN (theta k) (2 * dot nt (p_gamma pr0) (mv nt dRom dga) + dot nt (p_gamma pr0) (mv nt ddR (p_gamma pr0))).
Proof.
  unfold NN. eapply derive_eq.
  - apply (derive_dot nt (fun t => p_gamma (prt t)) (fun t => mv nt (dR_of g nx nt X (upd theta k t) om) (p_gamma (prt t))) dga (fun i => mv nt ddR (p_gamma pr0) i + mv nt dRom dga i)); [intros; apply dga_derive; assumption|].
    intros i Hi. pose proof (derive_mv nt (fun t => dR_of g nx nt X (upd theta k t) om) ddR (fun t => p_gamma (prt t)) dga (theta k) i) as D. cbv beta in D. rewrite upd_self in D. apply D; intros; [apply dRom_derive|apply dga_derive]; assumption.
  - rewrite upd_self. rewrite dot_plus_r. rewrite (dot_mv_sym nt dRom dga (p_gamma pr0) (dR_sym theta om)). match goal with |- ?a = ?b => change (@eq R a b) end. ring.
Qed.
(** the code's formula for the second derivative of sigma2 *)
Notation va := (Rinv_dmu_of g nx nt p X F pr0 theta k).
Notation ve := (Rinv_dmu_of g nx nt p X F pr0 theta om).
Notation vc := (Rinv_dR_gamma_of g nx nt X pr0 theta k).
Notation vd := (Rinv_dR_gamma_of g nx nt X pr0 theta om).
Notation dmu i := (dmu_of g nx nt p X F pr0 theta i).
Lemma dbeta_k j : (j < p)%nat -> dbeta_of g nx nt p X pr0 theta k j = dbe j.
Proof.
  intros Hj. unfold dbeta_of, arg_of, solve_triangular.
  rewrite (beta_solve nt p (Rth theta) F y pr0 (R_of_sym _) ok0 (fun i => - dga i) (fun i => - dbe i) (mv nt dRk (p_gamma pr0))); [ring| | |exact Hj].
  - intros i Hi. rewrite !mv_opp. pose proof (dkkt1 i Hi). lra.
  - intros l Hl. rewrite (rsum_ext nt _ (fun a => - (F a l * dga a))) by (intros; ring). rewrite rsum_opp, (dkkt2 l Hl). ring.
Qed.
Lemma R_va i : (i < nt)%nat -> mv nt (Rth theta) va i = dmu k i.
Proof. apply (solve_vec_ok nt p (Rth theta) F y pr0 (R_of_sym _) ok0). Qed.
Lemma R_ve i : (i < nt)%nat -> mv nt (Rth theta) ve i = dmu om i.
Proof. apply (solve_vec_ok nt p (Rth theta) F y pr0 (R_of_sym _) ok0). Qed.
Lemma R_vc i : (i < nt)%nat -> mv nt (Rth theta) vc i = mv nt dRk (p_gamma pr0) i.
Proof. apply (solve_vec_ok nt p (Rth theta) F y pr0 (R_of_sym _) ok0 (mv nt dRk (p_gamma pr0))). Qed.
Lemma R_vd i : (i < nt)%nat -> mv nt (Rth theta) vd i = mv nt dRom (p_gamma pr0) i.
Proof. apply (solve_vec_ok nt p (Rth theta) F y pr0 (R_of_sym _) ok0 (mv nt dRom (p_gamma pr0))). Qed.
Lemma va_vc i : (i < nt)%nat -> va i + vc i = - dga i.
Proof.
  apply (mpd_unique nt (Rth theta) (fun i => va i + vc i) (fun i => - dga i) (fit_pd _ _ _ _ _ _ (R_of_sym _) ok0)). intros a Ha. rewrite mv_plus, mv_opp, R_va, R_vc by exact Ha. pose proof (dkkt1 a Ha) as E.
  assert (Q : dmu k a = mv p F dbe a) by (unfold dmu_of; apply mv_ext; [reflexivity|exact dbeta_k]). lra.
Qed.
Lemma move (a b ra rb : vec) : (forall i, (i < nt)%nat -> mv nt (Rth theta) a i = ra i) -> (forall i, (i < nt)%nat -> mv nt (Rth theta) b i = rb i) -> dot nt ra b = dot nt rb a.
Proof.
  intros HA HB. rewrite (dot_ext nt ra b (mv nt (Rth theta) a) b) by (intros; try reflexivity; symmetry; apply HA; assumption). rewrite dot_sym, (dot_mv_sym nt (Rth theta) _ _ (R_of_sym theta)). rewrite dot_sym. apply dot_ext; [exact HB|reflexivity].
Qed.
Lemma dmu_sum i : dot nt (dmu i) va + dot nt (dmu i) vc = 0.
Proof.
  rewrite <- dot_plus_r. rewrite (dot_ext nt (dmu i) _ (dmu i) (fun a => - dga a)) by (intros; try reflexivity; apply va_vc; assumption). rewrite dot_opp_r. unfold dmu_of. rewrite dkkt2_mv. ring.
Qed.
Lemma sigma_args (ddmu : vec) : (exists b, forall i, (i < nt)%nat -> ddmu i = mv p F b i) ->
  (- dot nt ddmu (p_gamma pr0) + dot nt (dmu om) vc + dot nt (dmu k) vd) + (- dot nt (p_gamma pr0) ddmu + dot nt (p_gamma pr0) (mv nt dRk ve) + dot nt (p_gamma pr0) (mv nt dRom va))
  + (dot nt (dmu k) ve + dot nt (dmu om) va) + dot nt (p_gamma pr0) (fun a => - mv nt ddR (p_gamma pr0) a + mv nt dRk vd a + mv nt dRom vc a)
  = - (2 * dot nt (p_gamma pr0) (mv nt dRom dga) + dot nt (p_gamma pr0) (mv nt ddR (p_gamma pr0))).
Proof.
  intros (b & Hb). assert (Z : dot nt ddmu (p_gamma pr0) = 0) by (rewrite (dot_ext nt ddmu _ (mv p F b) (p_gamma pr0)) by (intros; try reflexivity; apply Hb; assumption); apply (F_gamma nt p (Rth theta) F y pr0 ok0)).
  rewrite (dot_sym nt (p_gamma pr0) ddmu), Z. rewrite !dot_plus_r, dot_opp_r. set (ga := p_gamma pr0) in *.
  pose proof (dmu_sum om) as Q1.
  assert (Q2 : dot nt (dmu k) vd = dot nt ga (mv nt dRom va)).
  { rewrite (move va vd (dmu k) (mv nt dRom ga) R_va R_vd). rewrite dot_sym, (dot_mv_sym nt dRom _ _ (dR_sym theta om)). reflexivity. }
  assert (Q3 : dot nt ga (mv nt dRk ve) = dot nt (dmu om) vc).
  { rewrite (dot_mv_sym nt dRk _ _ (dR_sym theta k)), dot_sym. apply (move vc ve (mv nt dRk ga) (dmu om) R_vc R_ve). }
  assert (Q4 : dot nt (dmu k) ve = dot nt (dmu om) va) by (apply (move va ve (dmu k) (dmu om) R_va R_ve)).
  assert (Q5 : dot nt ga (mv nt dRk vd) = dot nt ga (mv nt dRom vc)).
  { rewrite (dot_mv_sym nt dRk _ _ (dR_sym theta k)), dot_sym. rewrite (move vc vd (mv nt dRk ga) (mv nt dRom ga) R_vc R_vd). rewrite dot_sym, (dot_mv_sym nt dRom _ _ (dR_sym theta om)). reflexivity. }
  assert (Q6 : dot nt ga (mv nt dRom va) + dot nt ga (mv nt dRom vc) = - dot nt ga (mv nt dRom dga)).
  { rewrite <- dot_plus_r, <- dot_opp_r. apply dot_ext; [reflexivity|]. intros i Hi. rewrite <- mv_plus, <- mv_opp. apply mv_ext; [reflexivity|]. intros j Hj. apply va_vc. exact Hj. }
  lra.
Qed.
Lemma dsigma_form i : dsigma_of g nx nt p X F ystd pr0 theta i = 1 / INR nt * (- dot nt (p_gamma pr0) (mv nt (dR_of g nx nt X theta i) (p_gamma pr0))) * ystd ^ 2.
Proof.
  destruct fit0 as [v0 E0]. unfold dsigma_of. cbv zeta. rewrite (dot_sym nt (p_gamma pr0) (dmu_of g nx nt p X F pr0 theta i)), (dmu_zero theta v0 pr0 i E0). f_equal. f_equal. ring.
Qed.
Lemma hess_form : hess_of g nx nt p X F ystd pr0 theta om k =
  - (INR nt * (- (2 * dot nt (p_gamma pr0) (mv nt dRom dga) + dot nt (p_gamma pr0) (mv nt ddR (p_gamma pr0)))) / SS nt y pr0
     - INR nt * dot nt (p_gamma pr0) (mv nt dRom (p_gamma pr0)) * dot nt (p_gamma pr0) (mv nt dRk (p_gamma pr0)) / (SS nt y pr0) ^ 2
     + trace nt dTom) / ln 10.
Proof.
  destruct fit0 as [v0 E0]. destruct (rl_facts _ _ _ E0) as (_ & _ & S2 & _). unfold hess_of. cbv zeta. rewrite !dsigma_form, S2, Dof, dTom_trace.
  match goal with |- context [- dot nt ?d (p_gamma pr0) + _ + _] => rewrite (sigma_args d) by (eexists; intros; reflexivity) end.
  pose proof ln10_pos. pose proof INRnt. pose proof SS0_pos.
  generalize (dot nt (p_gamma pr0) (mv nt dRom dga)) (dot nt (p_gamma pr0) (mv nt ddR (p_gamma pr0))) (dot nt (p_gamma pr0) (mv nt dRom (p_gamma pr0))) (dot nt (p_gamma pr0) (mv nt dRk (p_gamma pr0))).
  generalize (trace nt (solve_R nt (p_C pr0) ddR)) (trace nt (mm nt (tr_of g nx nt X pr0 theta k) (tr_of g nx nt X pr0 theta om))). intros. field. repeat split; try assumption; lra.
Qed.
Lemma hessian_ok (gr : vec -> R) : locally (theta k) (fun t => rl_gradient qr rcond condF g nx nt p X F y ystd nugget noise dof (upd theta k t) om = Some (gr (upd theta k t))) ->
  exists h, rl_hessian qr rcond condF g nx nt p X F y ystd nugget noise dof theta om k = Some h /\ is_partial gr theta k h.
Proof.
  intros Lg. destruct fit0 as [v0 E0]. exists (hess_of g nx nt p X F ystd pr0 theta om k). unfold rl_hessian. rewrite E0. split; [reflexivity|]. rewrite hess_form. unfold is_partial.
  apply (is_derive_ext_loc (fun t => (- / ln 10) * (dof * (- NN t) * / SS nt y (prt t) + trace nt (Tom t)))).
  - generalize (filter_and _ _ Lg fit_loc). apply filter_imp. intros t (E & (v & E')). unfold rl_gradient in E. rewrite E' in E. injection E as E. rewrite <- E, (grad_form _ _ _ _ E'). unfold NN, Tom. match goal with |- ?a = ?b => change (@eq R a b) end. unfold Rdiv. ring.
  - pose proof SS0_pos as P. eapply derive_eq.
    + apply is_derive_scal. apply derive_sum.
      * apply derive_mul; [apply is_derive_scal; apply (is_derive_opp NN); apply NN_derive|].
        apply (is_derive_inv (fun t => SS nt y (prt t)) (theta k)); [apply SS_derive|lra].
      * unfold trace. apply (is_derive_rsum nt (fun a t => Tom t a a)). intros a Ha. apply dTom_derive; exact Ha.
    + cbv beta. rewrite NN0, Dof. unfold trace. match goal with |- context [opp ?z] => change (opp z) with (- z) end. match goal with |- ?a = ?b => change (@eq R a b) end. pose proof ln10_pos. pose proof INRnt. field. repeat split; lra.
Qed.
End Hess.
End Dir.
End G.
