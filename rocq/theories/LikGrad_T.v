(** C95, C96: derivatives of the reduced likelihood with respect to the hyperparameters. *)
From Coq Require Import Reals Arith Bool List Lia Lra FunctionalExtensionality.
From Coquelicot Require Import Coquelicot.
From Verif Require Import RSum Mat Tri_M Kernels_M Krg_M Krg_S Krg_P Krg_P2 Krg_P3 Krg_P4 Krg_P5 Krg_Qr LikGrad_M LikGrad_S LikGrad_P3 LikGrad_P4.
Import ListNotations.
Open Scope list_scope.
Open Scope R_scope.

(** C95. Where the likelihood can be evaluated (around theta), the gradient entry k is its partial derivative with respect
    to the hyperparameter k: for every kernel, class, trend matrix, noise and number of degrees of freedom *)
Theorem C95_gradient : forall qr rcond condF g nx nt p X F y ystd nugget noise dof,
  qr_contract qr -> rcond_contract rcond -> (1 <= nt)%nat -> (p <= nt)%nat -> 0 < dof -> ystd <> 0 -> not_trend nt p F y ->
  forall theta k (v : vec -> R), theta_ok g nx theta -> (k < n_theta g nx)%nat ->
  locally (theta k) (fun t => exists pr, rl qr rcond condF g nx nt p X F y ystd nugget noise dof (upd theta k t) = Fit (v (upd theta k t)) pr) ->
  exists gr, rl_gradient qr rcond condF g nx nt p X F y ystd nugget noise dof theta k = Some gr /\ is_partial v theta k gr.
Proof. exact gradient_thm. Qed.
Print Assumptions C95_gradient.
(** the function minimised by the TNC optimiser, of the decimal logarithms of theta, and the gradient it is given *)
Theorem C95_objective : forall qr rcond condF g nx nt p X F y ystd nugget noise dof,
  qr_contract qr -> rcond_contract rcond -> (1 <= nt)%nat -> (p <= nt)%nat -> 0 < dof -> ystd <> 0 -> not_trend nt p F y ->
  forall (l : vec) k (v : vec -> R), (k < n_theta g nx)%nat ->
  locally (l k) (fun t => obj qr rcond condF g nx nt p X F y ystd nugget noise dof (upd l k t) = Some (v (upd l k t))) ->
  exists gr, obj_grad qr rcond condF g nx nt p X F y ystd nugget noise dof l k = Some gr /\ is_partial v l k gr.
Proof. exact objective_thm. Qed.
Print Assumptions C95_objective.
(** without a likelihood value there is no gradient *)
Theorem C95_undefined_iff : forall qr rcond condF g nx nt p X F y ystd nugget noise dof theta k,
  rl_gradient qr rcond condF g nx nt p X F y ystd nugget noise dof theta k = None <->
  lik (rl qr rcond condF g nx nt p X F y ystd nugget noise dof theta) = None.
Proof. intros. unfold rl_gradient. destruct (rl _ _ _ _ _ _ _ _ _ _ _ _ _ _ _); cbn; split; intros; try reflexivity; discriminate. Qed.
Print Assumptions C95_undefined_iff.
(** the likelihood is the one evaluated in training *)
Theorem C95_same_likelihood : forall qr rcond condF g nx nt p X F y ystd nugget noise dof theta, g_corr g <> ActExp ->
  rl qr rcond condF g nx nt p X F y ystd nugget noise dof theta =
  reduced_likelihood qr rcond condF nt p dof (corr_matrix (match g with GStd c _ => KStd c theta | GPls c ncomp co => KPls c ncomp co theta end) nx nt X nugget noise) F y ystd.
Proof. intros. unfold rl. rewrite R_of_corr_matrix by assumption. reflexivity. Qed.
Print Assumptions C95_same_likelihood.

Definition X1 : nat -> vec := fun i _ => INR i.
Definition y1 : vec := INR.
(** training data 0, 1 with values 0, 1; the likelihood is defined for all positive theta *)
Lemma ex_fit th : 0 < th 0%nat -> exists v pr, rl gs_qr rcond01 cond0 (GStd SquarExp 1) 1 2 1 (Xnorm 2 X1) (Fmat PConstant 1 2 X1) (ynorm 2 y1) (scale1 2 y1) 0 (fun _ => 0) (INR 2) th = Fit v pr.
Proof.
  intros H. rewrite C95_same_likelihood by (cbn; congruence).
  assert (Dx : forall i j, (i < 2)%nat -> (j < 2)%nat -> i <> j -> ~ (forall k, (k < 1)%nat -> X1 i k = X1 j k)) by (intros i j _ _ N E; apply N; apply INR_eq; exact (E 0%nat ltac:(lia))).
  destruct (train_gs 1 2 PConstant (KStd SquarExp th) 0 (fun _ => 0) X1 y1) as [m E]; [lia|cbn; lia| |apply constant_regular; lia|].
  - apply corr_matrix_pd_distinct; [congruence| |apply Xnorm_distinct; exact Dx|intros; lra]. intros j Hj. assert (j = 0%nat) as -> by lia. exact H.
  - unfold krg_train in E. cbv zeta in E. cbn [Nat.leb Nat.ltb n_regr] in E.
    match type of E with match ?d with _ => _ end = _ => destruct d as [v pr| |] eqn:ER; [|discriminate|discriminate] end. exists v, pr. exact ER.
Qed.
Lemma ex_not_trend : not_trend 2 1 (Fmat PConstant 1 2 X1) (ynorm 2 y1).
Proof.
  intros (b & Hb). pose proof (Hb 0%nat ltac:(lia)) as E0. pose proof (Hb 1%nat ltac:(lia)) as E1. assert (E : mv 1 (Fmat PConstant 1 2 X1) b 0 = mv 1 (Fmat PConstant 1 2 X1) b 1) by reflexivity.
  rewrite <- E0, <- E1 in E. unfold ynorm in E. set (s := scale1 2 y1) in *. assert (s <> 0) by apply scale1_nz. set (m := mean 2 y1) in *. apply (Rmult_eq_compat_r s) in E. unfold Rdiv in E. rewrite !Rmult_assoc, Rinv_l, !Rmult_1_r in E by assumption. unfold y1 in E. cbn in E. lra.
Qed.
Example C95_nonvacuous : qr_contract gs_qr /\ rcond_contract rcond01 /\ scale1 2 y1 <> 0 /\ not_trend 2 1 (Fmat PConstant 1 2 X1) (ynorm 2 y1) /\
  exists v : vec -> R, forall th : vec, 0 < th 0%nat ->
    locally (th 0%nat) (fun t => exists pr, rl gs_qr rcond01 cond0 (GStd SquarExp 1) 1 2 1 (Xnorm 2 X1) (Fmat PConstant 1 2 X1) (ynorm 2 y1) (scale1 2 y1) 0 (fun _ => 0) (INR 2) (upd th 0 t) = Fit (v (upd th 0 t)) pr).
Proof.
  split; [exact gs_contract|]. split; [exact rcond01_contract|]. split; [apply scale1_nz|]. split; [exact ex_not_trend|].
  exists (fun th => match rl gs_qr rcond01 cond0 (GStd SquarExp 1) 1 2 1 (Xnorm 2 X1) (Fmat PConstant 1 2 X1) (ynorm 2 y1) (scale1 2 y1) 0 (fun _ => 0) (INR 2) th with Fit v _ => v | _ => 0 end).
  intros th H. assert (L : locally (th 0%nat) (fun s => 0 < s)) by (apply (open_gt 0); exact H). generalize L. apply filter_imp. intros t Ht. destruct (ex_fit (upd th 0 t)) as (v & pr & E); [rewrite upd_eq; exact Ht|]. exists pr. rewrite E. reflexivity.
Qed.

(** C96. With as many degrees of freedom as data (every model except multi-fidelity kriging), the Hessian entry of a pair is the
    partial derivative of the gradient entry of the first with respect to the second; the Hessian is symmetric; the
    index table lists each pair once *)
Theorem C96_hessian : forall qr rcond condF g nx nt p X F y ystd nugget noise,
  qr_contract qr -> rcond_contract rcond -> (1 <= nt)%nat -> (p <= nt)%nat -> ystd <> 0 -> not_trend nt p F y ->
  forall theta om eta (gr : vec -> R), theta_ok g nx theta -> (om < n_theta g nx)%nat -> (eta < n_theta g nx)%nat ->
  locally (theta eta) (fun t => rl_gradient qr rcond condF g nx nt p X F y ystd nugget noise (INR nt) (upd theta eta t) om = Some (gr (upd theta eta t))) ->
  exists h, rl_hessian qr rcond condF g nx nt p X F y ystd nugget noise (INR nt) theta om eta = Some h /\ is_partial gr theta eta h.
Proof. intros qr rcond condF g nx nt p X F y ystd nugget noise HQ HR Hn Hp Hy NT theta om eta gr. apply hessian_thm; try assumption; [apply lt_0_INR; lia|reflexivity]. Qed.
Print Assumptions C96_hessian.
Theorem C96_symmetric : forall qr rcond condF g nx nt p X F y ystd nugget noise dof,
  qr_contract qr -> rcond_contract rcond -> (p <= nt)%nat -> forall theta om eta,
  rl_hessian qr rcond condF g nx nt p X F y ystd nugget noise dof theta om eta = rl_hessian qr rcond condF g nx nt p X F y ystd nugget noise dof theta eta om.
Proof. exact hessian_sym. Qed.
Print Assumptions C96_symmetric.
Theorem C96_indices : forall nb, snd (hess_ij nb) = (nb * (nb + 1) / 2)%nat /\
  (forall q, (q < nb * (nb + 1) / 2)%nat -> (fst (fst (hess_ij nb) q) <= snd (fst (hess_ij nb) q) < nb)%nat) /\
  (forall om eta, (om <= eta < nb)%nat -> exists q, (q < nb * (nb + 1) / 2)%nat /\ fst (hess_ij nb) q = (om, eta) /\
     forall q', (q' < nb * (nb + 1) / 2)%nat -> fst (hess_ij nb) q' = (om, eta) -> q' = q).
Proof. exact hess_ij_ok. Qed.
Print Assumptions C96_indices.
Example C96_nonvacuous : exists gr : vec -> R, forall th : vec, 0 < th 0%nat -> locally (th 0%nat) (fun t =>
  rl_gradient gs_qr rcond01 cond0 (GStd SquarExp 1) 1 2 1 (Xnorm 2 X1) (Fmat PConstant 1 2 X1) (ynorm 2 y1) (scale1 2 y1) 0 (fun _ => 0) (INR 2) (upd th 0 t) 0 = Some (gr (upd th 0 t))).
Proof.
  exists (fun th => match rl_gradient gs_qr rcond01 cond0 (GStd SquarExp 1) 1 2 1 (Xnorm 2 X1) (Fmat PConstant 1 2 X1) (ynorm 2 y1) (scale1 2 y1) 0 (fun _ => 0) (INR 2) th 0 with Some v => v | _ => 0 end).
  intros th H. assert (L : locally (th 0%nat) (fun s => 0 < s)) by (apply (open_gt 0); exact H). generalize L. apply filter_imp. intros t Ht. destruct (ex_fit (upd th 0 t)) as (v & pr & E); [rewrite upd_eq; exact Ht|]. unfold rl_gradient. rewrite E. reflexivity.
Qed.
