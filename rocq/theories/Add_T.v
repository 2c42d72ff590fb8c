(** C119: adding data that a model already predicts. *)
From Coq Require Import Reals Arith Bool List Lia Lra.
From Verif Require Import RSum Mat Psd2 Kernels_M Krg_M Krg_S Krg_P3 Krg_P8 Krg_Qr Krg_T Rbf_M Rbf_S Poly_M Poly_P2 Idw_M Add_S Add_P2 Add_P3 Add_P4.
Open Scope R_scope.

(** Kriging: when the kernel stays the same function of the raw inputs, the model trained on more points whose outputs are
    those the first model predicts gives the same predictions everywhere - for every trend, nugget and noise; ... *)
Theorem C119_kriging_same_predictions : forall qr rcond condF, qr_contract qr -> rcond_contract rcond ->
  forall nx po nugget n N s s2 noise noise2 X X2 y y2 m m2,
  krg_train qr rcond condF nx n po s nugget noise X y = Some m -> krg_train qr rcond condF nx N po s2 nugget noise2 X2 y2 = Some m2 ->
  extends n N noise X y noise2 X2 y2 -> same_correlation nx n s X N s2 X2 -> (forall i, (n <= i < N)%nat -> y2 i = predict_value m (X2 i)) ->
  (forall x, predict_value m2 x = predict_value m x) /\ p_sigma2 (m_par m2) * INR N = p_sigma2 (m_par m) * INR n.
Proof.
  intros qr rcond condF HQ HR nx po nugget n N s s2 noise noise2 X X2 y y2 m m2 E E2 EX SC CO.
  split; [exact (more_value qr rcond condF HQ HR nx po nugget n N s s2 noise noise2 X X2 y y2 m m2 E E2 EX SC CO)|exact (more_sigma2 qr rcond condF HQ HR nx po nugget n N s s2 noise noise2 X X2 y y2 m m2 E E2 EX SC CO)].
Qed.
Print Assumptions C119_kriging_same_predictions.
(** ... this holds of every kernel (not act_exp) when the hyperparameters follow the standard deviations of the inputs ... *)
Theorem C119_kriging_rescaled : forall c theta nx n X N X2, c <> ActExp ->
  same_correlation nx n (KStd c theta) X N (KStd c (rescaled c theta (fun j => scale1 n (fun a => X a j)) (fun j => scale1 N (fun a => X2 a j)))) X2.
Proof. exact rescaled_same. Qed.
Print Assumptions C119_kriging_rescaled.
(** ... and, with a constant trend, the predicted variances shrink at least by the factor n/N. *)
Theorem C119_kriging_variance : forall qr rcond condF, qr_contract qr -> rcond_contract rcond ->
  forall nx nugget n N s s2 noise noise2 X X2 y y2 m m2,
  krg_train qr rcond condF nx n PConstant s nugget noise X y = Some m -> krg_train qr rcond condF nx N PConstant s2 nugget noise2 X2 y2 = Some m2 ->
  extends n N noise X y noise2 X2 y2 -> same_correlation nx n s X N s2 X2 -> k_ok s nx -> k_ok s2 nx ->
  (forall i, (i < n)%nat -> 0 <= nugget + noise i) -> (forall i, (i < N)%nat -> 0 <= nugget + noise2 i) -> (forall i, (n <= i < N)%nat -> y2 i = predict_value m (X2 i)) ->
  forall x, predict_variance m2 x <= INR n / INR N * predict_variance m x.
Proof.
  intros qr rcond condF HQ HR nx nugget n N s s2 noise noise2 X X2 y y2 m m2 E E2 EX SC K K2 Nn Nn2 CO x.
  exact (more_variance qr rcond condF HQ HR nx PConstant nugget n N s s2 noise noise2 X X2 y y2 m m2 E E2 EX SC K K2 Nn Nn2 eq_refl CO x).
Qed.
Print Assumptions C119_kriging_variance.
(** Whatever the outputs of the new points, the variance relative to the process variance never grows with more points. *)
Theorem C119_kriging_relative_variance : forall qr rcond condF, qr_contract qr -> rcond_contract rcond ->
  forall nx nugget n N s s2 noise noise2 X X2 y y2 m m2,
  krg_train qr rcond condF nx n PConstant s nugget noise X y = Some m -> krg_train qr rcond condF nx N PConstant s2 nugget noise2 X2 y2 = Some m2 ->
  extends n N noise X y noise2 X2 y2 -> same_correlation nx n s X N s2 X2 -> k_ok s nx -> k_ok s2 nx ->
  (forall i, (i < n)%nat -> 0 <= nugget + noise i) -> (forall i, (i < N)%nat -> 0 <= nugget + noise2 i) ->
  forall x, predict_variance m2 x * p_sigma2 (m_par m) <= predict_variance m x * p_sigma2 (m_par m2).
Proof.
  intros qr rcond condF HQ HR nx nugget n N s s2 noise noise2 X X2 y y2 m m2 E E2 EX SC K K2 Nn Nn2 x.
  exact (more_relative_variance qr rcond condF HQ HR nx PConstant nugget n N s s2 noise noise2 X X2 y y2 m m2 E E2 EX SC K K2 Nn Nn2 eq_refl x).
Qed.
Print Assumptions C119_kriging_relative_variance.
(** With unchanged hyperparameters the predictions do change, because the inputs are standardised anew. *)
Theorem C119_kriging_unchanged_theta_refuted : exists m m2, krg_train gs_qr rcond01 cond0 1 2 PConstant sa 0 (fun _ => 0) Xa ya = Some m /\
  krg_train gs_qr rcond01 cond0 1 3 PConstant sa 0 (fun _ => 0) Xa ya = Some m2 /\ ya 2%nat = predict_value m (Xa 2%nat) /\ predict_value m2 (fun _ => 3) <> predict_value m (fun _ => 3).
Proof.
  destruct (Xa_train 2) as [m E]; [lia|]. destruct (Xa_train 3) as [m2 E2]; [lia|]. exists m, m2. split; [exact E|]. split; [exact E2|]. exact (same_theta_refuted m m2 E E2).
Qed.
Print Assumptions C119_kriging_unchanged_theta_refuted.
(** RBF: for every regularisation reg >= 0 and every degree of the trend. *)
Theorem C119_rbf : forall nx n N deg d0 xt xt2 reg yt yt2 sol sol2, (n <= N)%nat -> (forall i, (i < n)%nat -> xt2 i = xt i /\ yt2 i = yt i) ->
  rbf_solves nx n deg d0 xt reg yt sol -> (forall i, (n <= i < N)%nat -> yt2 i = rbf_value nx n deg d0 xt sol (xt2 i)) ->
  (forall k, (k < nx)%nat -> d0 k <> 0) -> 0 <= reg -> (reg = 0 -> distinct nx N xt2) -> trend_full_rank nx N deg xt2 ->
  rbf_solves nx N deg d0 xt2 reg yt2 sol2 -> forall x, rbf_value nx N deg d0 xt2 sol2 x = rbf_value nx n deg d0 xt sol x.
Proof. exact rbf_more. Qed.
Print Assumptions C119_rbf.
(** LS: at all points of the larger set, and everywhere when they are affinely independent enough. *)
Theorem C119_ls : forall lstsq nx n N xt xt2 yt yt2,
  (forall nt (X : mat) (y : vec) k, (k < nx)%nat -> mv nt (tr X) (fun e => mv nx X (lstsq nt nx X y) e - y e) k = 0) -> (0 < n)%nat -> (n <= N)%nat ->
  (forall i, (i < n)%nat -> xt2 i = xt i /\ yt2 i = yt i) -> (forall i, (n <= i < N)%nat -> yt2 i = ls_value nx (ls_fit lstsq nx n xt yt) (xt2 i)) ->
  (forall i, (i < N)%nat -> ls_value nx (ls_fit lstsq nx N xt2 yt2) (xt2 i) = ls_value nx (ls_fit lstsq nx n xt yt) (xt2 i)) /\
  ((forall a' (b' : vec), (forall i, (i < N)%nat -> a' + rsum nx (fun k => b' k * xt2 i k) = 0) -> a' = 0 /\ forall k, (k < nx)%nat -> b' k = 0) ->
   forall x, ls_value nx (ls_fit lstsq nx N xt2 yt2) x = ls_value nx (ls_fit lstsq nx n xt yt) x).
Proof.
  intros lstsq nx n N xt xt2 yt yt2 L Hn HN EX CO. split; [exact (ls_more_at lstsq nx n N xt xt2 yt yt2 L Hn HN EX CO)|exact (ls_more lstsq nx n N xt xt2 yt yt2 L Hn HN EX CO)].
Qed.
Print Assumptions C119_ls.
(** QP, when both normal matrices are invertible. *)
Theorem C119_qp : forall inv dim n N xt xt2 yt yt2 c c2, (n <= N)%nat -> (forall i, (i < n)%nat -> xt2 i = xt i /\ yt2 i = yt i) ->
  let p := qp_napp dim in let gram := fun nt (x : nat -> vec) => mm nt (tr (fun e a => qp_row dim (x e) a)) (fun e a => qp_row dim (x e) a) in
  (forall i j, (i < p)%nat -> (j < p)%nat -> mm p (gram n xt) (inv (gram n xt)) i j = idm i j) ->
  (forall i j, (i < p)%nat -> (j < p)%nat -> mm p (inv (gram N xt2)) (gram N xt2) i j = idm i j) ->
  qp_train inv dim n xt yt = Some c -> qp_train inv dim N xt2 yt2 = Some c2 -> (forall i, (n <= i < N)%nat -> yt2 i = qp_value dim c (xt2 i)) ->
  forall x, qp_value dim c2 x = qp_value dim c x.
Proof. exact qp_more. Qed.
Print Assumptions C119_qp.
(** IDW has no such property, whatever the exponent p <> 0: adding to the values 0 at 0 and 2 at 2 the predicted value 1 at 1 changes the prediction at 1/2. *)
Theorem C119_idw_refuted : forall p, p <> 0 -> ya 2%nat = idw_value 1 2 p Xa ya (Xa 2%nat) /\ idw_value 1 3 p Xa ya (fun _ => 1 / 2) <> idw_value 1 2 p Xa ya (fun _ => 1 / 2).
Proof. exact idw_more. Qed.
Print Assumptions C119_idw_refuted.
(** with the rescaled hyperparameters the hypotheses hold of a concrete pair of models *)
Example C119_nonvacuous : let s2 := KStd SquarExp (rescaled SquarExp (fun _ => 1) (fun j => scale1 2 (fun a => Xa a j)) (fun j => scale1 3 (fun a => Xa a j))) in
  exists m m2, krg_train gs_qr rcond01 cond0 1 2 PConstant sa 0 (fun _ => 0) Xa ya = Some m /\ krg_train gs_qr rcond01 cond0 1 3 PConstant s2 0 (fun _ => 0) Xa ya = Some m2 /\
  extends 2 3 (fun _ => 0) Xa ya (fun _ => 0) Xa ya /\ same_correlation 1 2 sa Xa 3 s2 Xa /\ k_ok sa 1 /\ k_ok s2 1 /\ (forall i, (2 <= i < 3)%nat -> ya i = predict_value m (Xa i)).
Proof.
  cbv zeta. set (r := rescaled _ _ _ _).
  assert (Pr : forall j, 0 < r j) by (intros j; unfold r, rescaled; pose proof (Krg_P2.scale1_pos 2 (fun a => Xa a j)) as A; pose proof (Krg_P2.scale1_pos 3 (fun a => Xa a j)) as B; apply Rmult_lt_0_compat; [lra|]; apply pow_lt; apply Rdiv_lt_0_compat; assumption).
  destruct (Xa_train 2) as [m E]; [lia|].
  assert (E2 : exists m2, krg_train gs_qr rcond01 cond0 1 3 PConstant (KStd SquarExp r) 0 (fun _ => 0) Xa ya = Some m2).
  { apply train_gs; [lia|cbn; lia| |apply constant_regular; lia].
    destruct (t_distinct_pd SquarExp r 1 3 Xa 0 (fun _ => 0)) as [C EC]; [discriminate|intros; apply Pr|apply Xa_distinct; lia|intros; lra|]. exact (Tri_P.chol_pd 3 _ C (Krg_P.corr_matrix_sym _ _ _ _ _ _) (Tri_P.chol_sound _ _ _ EC)). }
  destruct E2 as [m2 E2]. exists m, m2. split; [exact E|]. split; [exact E2|]. split; [split; [lia|intros; split; [reflexivity|split; reflexivity]]|].
  split; [apply rescaled_same; discriminate|]. split; [split; [discriminate|intros; lra]|]. split; [split; [discriminate|intros; apply Rlt_le, Pr]|].
  intros i Hi. replace i with 2%nat by lia. destruct (Xa_train 3) as [m3 E3]; [lia|]. exact (proj1 (same_theta_refuted m m3 E E3)).
Qed.
