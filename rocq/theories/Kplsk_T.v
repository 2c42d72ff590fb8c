(** Theorems C103. *)
From Coq Require Import Reals Arith Bool List Lia Lra.
From Verif Require Import RSum Mat Tri_M Kernels_M Krg_M Krg_S Krg_Qr HyperOpt_M HyperOpt_S Kplsk_M Kplsk_S Kplsk_P Kplsk_P2.
Import ListNotations.
Open Scope list_scope.
Open Scope R_scope.

(** C103. KPLSK gives its second phase the weights of the inputs in the PLS model found by the first; where they
    lie within theta_bounds the second phase starts from them, and there the likelihood, with all its parameters,
    is the one the first phase ended with ... *)
Theorem C103_second_phase_starts_from_the_first : forall qr rcond condF nx nt po Xn yn ystd co nc het nugget noise0 hn tb_lo tb_hi nb_lo nb_hi nb opt1 rnd1 rnd2 theta0 n nb' v1 p1 t1,
  phase1 qr rcond condF nx nt po Xn yn ystd co nc false het nugget noise0 hn tb_lo tb_hi nb_lo nb_hi nb opt1 rnd1 theta0 = Done n nb' v1 (Some (p1, t1)) -> length t1 = nc ->
  exists w, next_theta0 nx co nc false t1 = Some w /\ weights nx nc co (vec_of t1) w /\
    (within tb_lo tb_hi w -> start false het noise0 tb_lo tb_hi nb_lo nb_hi rnd2 w = w /\
       lik_full qr rcond condF nx nt po Xn yn ystd false het nugget noise0 hn (start false het noise0 tb_lo tb_hi nb_lo nb_hi rnd2 w) = Fin v1 p1).
Proof. intros qr rcond condF nx nt po Xn yn ystd co nc het nugget noise0 hn a b c d nb opt1 rnd1 rnd2 theta0 n nb' v1 p1 t1. apply t_start. reflexivity. Qed.
Print Assumptions C103_second_phase_starts_from_the_first.
(** ... so is the prediction, and its variance, everywhere ... *)
Theorem C103_same_predictions : forall qr rcond condF nx nt po X y co nc theta w nugget noise m, weights nx nc co theta w ->
  krg_train qr rcond condF nx nt po (KPls SquarExp nc co theta) nugget noise X y = Some m ->
  exists m', krg_train qr rcond condF nx nt po (KStd SquarExp (vec_of w)) nugget noise X y = Some m' /\
    forall x, predict_value m' x = predict_value m x /\ predict_variance m' x = predict_variance m x.
Proof. exact t_same_predictions. Qed.
Print Assumptions C103_same_predictions.
(** ... hence an optimiser that tries its starting point and returns the best point it has tried ends with a
    likelihood at least as large as that of the first phase (outputs not exactly reproduced by the trend) ... *)
Theorem C103_not_worse : forall qr rcond condF nx nt po X y co nc nugget noise0 hn tb_lo tb_hi nb_lo nb_hi nb opt1 opt2 rnd1 rnd2 theta0 n nb' v1 p1 t1 w v p t,
  qr_contract qr -> rcond_contract rcond -> (2 <= nt)%nat -> (n_regr po nx <= nt)%nat ->
  (forall b : vec, exists i, (i < nt)%nat /\ ynorm nt y i <> mv (n_regr po nx) (fun i j => fvec po nx (Xnorm nt X i) j) b i) ->
  phase1 qr rcond condF nx nt po (Xnorm nt X) (ynorm nt y) (scale1 nt y) co nc false false nugget noise0 hn tb_lo tb_hi nb_lo nb_hi nb opt1 rnd1 theta0 = Done n nb' v1 (Some (p1, t1)) ->
  length t1 = nc -> weights nx nc co (vec_of t1) w -> within tb_lo tb_hi w ->
  (forall s, good_attempt (lik_full qr rcond condF nx nt po (Xnorm nt X) (ynorm nt y) (scale1 nt y) false false nugget noise0 hn) (opt2 s 0%nat)) ->
  (forall s, ~ raised (opt2 s 0%nat)) -> tries_start opt2 ->
  kplsk_train qr rcond condF nx nt po (Xnorm nt X) (ynorm nt y) (scale1 nt y) co nc false false nugget noise0 hn tb_lo tb_hi nb_lo nb_hi nb opt1 opt2 rnd1 rnd2 theta0 = Trained v p t -> v1 <= v.
Proof. exact t_not_worse_data. Qed.
Print Assumptions C103_not_worse.
(** ... but a weight outside the bounds, in particular that of an input with no PLS coefficient, is replaced by
    a random number ... *)
Theorem C103_zero_coefficient_randomised : forall nx co nc eval_noise het noise0 tb_lo tb_hi nb_lo nb_hi rnd w theta j,
  0 < tb_lo -> weights nx nc co theta w -> (j < nx)%nat -> (forall l, (l < nc)%nat -> co j l = 0) ->
  nth j (start eval_noise het noise0 tb_lo tb_hi nb_lo nb_hi rnd w) 0 = rnd j * (tb_hi - tb_lo) + tb_lo.
Proof. exact t_zero_coefficient. Qed.
Print Assumptions C103_zero_coefficient_randomised.
(** ... the trained model is the Kriging model on the inputs with the hyperparameters found ... *)
Theorem C103_model : forall qr rcond condF nx nt po X y co nc eval_noise het nugget noise0 hn tb_lo tb_hi nb_lo nb_hi nb opt1 opt2 rnd1 rnd2 theta0 v p t, (2 <= nt)%nat -> (n_regr po nx <= nt)%nat ->
  kplsk_train qr rcond condF nx nt po (Xnorm nt X) (ynorm nt y) (scale1 nt y) co nc eval_noise het nugget noise0 hn tb_lo tb_hi nb_lo nb_hi nb opt1 opt2 rnd1 rnd2 theta0 = Trained v p t ->
  exists m theta, (forall j, (j < nx)%nat -> theta j = nth j t 0) /\
    krg_train qr rcond condF nx nt po (KStd SquarExp theta) (if eval_noise then 0 else nugget)
      (if het then hn else if eval_noise then (fun _ => nth nx t 0) else (fun _ => noise0)) X y = Some m /\ m_par m = p /\ m_k m = final_kernel nx eval_noise het t.
Proof. exact t_model. Qed.
Print Assumptions C103_model.
Theorem C103_result_consistent : forall qr rcond condF nx nt po Xn yn ystd co nc eval_noise het nugget noise0 hn tb_lo tb_hi nb_lo nb_hi nb opt1 opt2 rnd1 rnd2 theta0 v p t,
  kplsk_train qr rcond condF nx nt po Xn yn ystd co nc eval_noise het nugget noise0 hn tb_lo tb_hi nb_lo nb_hi nb opt1 opt2 rnd1 rnd2 theta0 = Trained v p t ->
  lik_full qr rcond condF nx nt po Xn yn ystd eval_noise het nugget noise0 hn t = Fin v p.
Proof. exact t_final. Qed.
Print Assumptions C103_result_consistent.
(** ... with an estimated noise the second phase keeps the weights but starts again from noise0, not from the
    noise of the first, at which the likelihoods agree ... *)
Theorem C103_noise_restarts : forall qr rcond condF nx nt po Xn yn ystd co nc nugget noise0 hn tb_lo tb_hi nb_lo nb_hi rnd theta s, length theta = nc ->
  exists w, next_theta0 nx co nc true (theta ++ [s]) = Some w /\ weights nx nc co (vec_of theta) w /\
    lik_full qr rcond condF nx nt po Xn yn ystd true false nugget noise0 hn (w ++ [s]) = lik_pls qr rcond condF nx nt po Xn yn ystd co nc true false nugget noise0 hn (theta ++ [s]) /\
    (within tb_lo tb_hi w -> nb_lo <= nb_hi -> exists s0, start true false noise0 tb_lo tb_hi nb_lo nb_hi rnd w = w ++ [s0] /\ nb_lo <= s0 <= nb_hi /\ (nb_lo <= noise0 <= nb_hi -> noise0 <> 0 -> s0 = noise0)).
Proof.
  intros qr rcond condF nx nt po Xn yn ystd co nc nugget noise0 hn a b c d rnd theta s L. destruct (next_noise nx co nc true theta s eq_refl L) as (w & Hw & W). exists w. split; [exact Hw|]. split; [exact W|].
  split; [exact (same_noise qr rcond condF nx nt po Xn yn ystd co nc true false nugget noise0 hn theta w s eq_refl eq_refl L W)|]. intros B H. exact (t_noise_restarts true false noise0 a b c d rnd w eq_refl eq_refl B H).
Qed.
Print Assumptions C103_noise_restarts.
(** ... and with eval_noise and use_het_noise together, where there is no noise entry to drop, the last
    hyperparameter is dropped: with one component all weights become 0 (so all are randomised), with two the
    first hyperparameter is used for both, with three or more training fails. *)
Theorem C103_estimated_heteroscedastic_refuted : forall nx co nc best, length best = nc ->
  (nc = 1%nat -> exists w, next_theta0 nx co nc true best = Some w /\ length w = nx /\ forall j, nth j w 0 = 0) /\
  (nc = 2%nat -> exists w, next_theta0 nx co nc true best = Some w /\ weights nx nc co (fun _ => nth 0 best 0) w) /\
  ((3 <= nc)%nat -> next_theta0 nx co nc true best = None).
Proof. intros nx co nc best. apply het_next. reflexivity. Qed.
Print Assumptions C103_estimated_heteroscedastic_refuted.
Theorem C103_estimated_heteroscedastic_raises : forall qr rcond condF nx nt po Xn yn ystd co nc het nugget noise0 hn tb_lo tb_hi nb_lo nb_hi nb opt1 opt2 rnd1 rnd2 theta0 n nb' v1 p1 t1, (3 <= nc)%nat ->
  phase1 qr rcond condF nx nt po Xn yn ystd co nc true het nugget noise0 hn tb_lo tb_hi nb_lo nb_hi nb opt1 rnd1 theta0 = Done n nb' v1 (Some (p1, t1)) -> length t1 = nc ->
  kplsk_train qr rcond condF nx nt po Xn yn ystd co nc true het nugget noise0 hn tb_lo tb_hi nb_lo nb_hi nb opt1 opt2 rnd1 rnd2 theta0 = Raised.
Proof. intros qr rcond condF nx nt po Xn yn ystd co nc het nugget noise0 hn a b c d nb opt1 opt2 rnd1 rnd2 theta0 n nb' v1 p1 t1. apply t_het_raises. reflexivity. Qed.
Print Assumptions C103_estimated_heteroscedastic_raises.
(** two points; an optimiser that returns its starting point *)
Example C103_nonvacuous : qr_contract gs_qr /\ rcond_contract rcond01 /\
  (forall b : vec, exists i, (i < 2)%nat /\ ynorm 2 y1 i <> mv (n_regr PConstant 1) (fun i j => fvec PConstant 1 (Xnorm 2 X1 i) j) b i) /\
  exists opt, tries_start opt /\ (forall s, ~ raised (opt s 0%nat)) /\
  (forall s, good_attempt (lik_full gs_qr rcond01 cond0 1 2 PConstant (Xnorm 2 X1) (ynorm 2 y1) (scale1 2 y1) false false 0 0 (fun _ => 0)) (opt s 0%nat)) /\
  exists v p, weights 1 1 ones (vec_of [1]) [1] /\ within (1 / 10) 10 [1] /\
  phase1 gs_qr rcond01 cond0 1 2 PConstant (Xnorm 2 X1) (ynorm 2 y1) (scale1 2 y1) ones 1 false false 0 0 (fun _ => 0) (1 / 10) 10 0 1 5 opt (fun _ => 0) [1] = Done 1 5 v (Some (p, [1])) /\
  kplsk_train gs_qr rcond01 cond0 1 2 PConstant (Xnorm 2 X1) (ynorm 2 y1) (scale1 2 y1) ones 1 false false 0 0 (fun _ => 0) (1 / 10) 10 0 1 5 opt opt (fun _ => 0) (fun _ => 0) [1] = Trained v p [1].
Proof.
  split; [exact gs_contract|]. split; [exact rcond01_contract|]. split; [exact y1_not_trend|]. eexists. split; [|split; [|split; [|exact instance]]].
  - intros s. left. reflexivity.
  - intros s. discriminate.
  - intros s. apply echo_good. apply L1_noexc.
Qed.
