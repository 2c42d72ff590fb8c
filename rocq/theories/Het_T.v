(** C101: heteroscedastic noise estimated from replicated inputs. *)
From Coq Require Import Reals Arith Bool List Lia Lra.
From Coquelicot Require Import Coquelicot.
From Verif Require Import RSum Mat Tri_M Kernels_M Krg_M Krg_S Krg_Qr Krg_P5 Het_M Het_S Het_P4 Het_P5.
Import ListNotations.
Open Scope list_scope.
Open Scope R_scope.

(** C101. Training with noise estimation predicts exactly what the best linear unbiased predictor of all
    observations predicts, when every observation has as noise variance the sample variance of the outputs
    observed at its input (noise0 where these do not spread) ... *)
Theorem C101_equivalent_to_all_observations : forall qr rcond condF, qr_contract qr -> rcond_contract rcond ->
  forall nx n po s nugget s0 X y m, het_train qr rcond condF nx 1 n po s nugget [s0] X (fun i _ => y i) 0 = Some m -> 0 <= s0 ->
  forall x, exists w, q_blup nx n po s 0 (obs_noise nx n X y s0) X x w /\ predict_value m x = dot n w y.
Proof. exact t_het_blup. Qed.
Print Assumptions C101_equivalent_to_all_observations.
(** ... with the same mean squared error, for a constant trend ... *)
Theorem C101_variance_constant_trend : forall qr rcond condF, qr_contract qr -> rcond_contract rcond ->
  forall nx n po s nugget s0 X y m, het_train qr rcond condF nx 1 n po s nugget [s0] X (fun i _ => y i) 0 = Some m -> 0 <= s0 ->
  forall x w, k_ok s nx -> po = PConstant -> q_blup nx n po s 0 (obs_noise nx n X y s0) X x w ->
  predict_variance m x = p_sigma2 (m_par m) * q_mse nx n s 0 (obs_noise nx n X y s0) X x w.
Proof. exact t_het_variance. Qed.
Print Assumptions C101_variance_constant_trend.
(** ... at an input without noise it predicts the mean of the outputs observed there; so with noise0 = 0 it
    interpolates wherever the observations agree, a single one in particular ... *)
Theorem C101_mean_where_no_noise : forall qr rcond condF, qr_contract qr -> rcond_contract rcond ->
  forall nx n po s nugget s0 X y m, het_train qr rcond condF nx 1 n po s nugget [s0] X (fun i _ => y i) 0 = Some m ->
  forall i, (i < n)%nat -> obs_noise nx n X y s0 i = 0 -> predict_value m (X i) = rep_mean nx n X y i.
Proof. intros qr rcond condF HQ HR nx n po s nugget s0 X y m Hm. exact (t_het_observed qr rcond condF HQ HR nx n po s nugget s0 X y m Hm). Qed.
Print Assumptions C101_mean_where_no_noise.
Theorem C101_interpolates_where_observations_agree : forall qr rcond condF nx n po s nugget X y m, qr_contract qr -> rcond_contract rcond ->
  het_train qr rcond condF nx 1 n po s nugget [0] X (fun i _ => y i) 0 = Some m ->
  forall i, (i < n)%nat -> (forall j, (j < n)%nat -> same nx (X j) (X i) -> y j = y i) -> predict_value m (X i) = y i.
Proof. exact t_het_exact. Qed.
Print Assumptions C101_interpolates_where_observations_agree.
(** ... the model keeps every distinct training input once, in lexicographic order ... *)
Theorem C101_inputs_kept : forall qr rcond condF, qr_contract qr -> rcond_contract rcond ->
  forall nx n po s nugget s0 X y m, het_train qr rcond condF nx 1 n po s nugget [s0] X (fun i _ => y i) 0 = Some m ->
  exists r : nat -> nat, (forall u, (u < m_nt m)%nat -> (r u < n)%nat) /\ (forall u v, (u < v)%nat -> (v < m_nt m)%nat -> lex_lt nx (X (r u)) (X (r v))) /\
  (forall i, (i < n)%nat -> exists u, (u < m_nt m)%nat /\ same nx (X i) (X (r u))) /\
  (forall u c, (u < m_nt m)%nat -> (c < nx)%nat -> m_Xn m u c = q_std n X (X (r u)) c).
Proof. intros qr rcond condF HQ HR nx n po s nugget s0 X y m Hm. exact (t_het_inputs qr rcond condF HQ HR nx n po s nugget s0 X y m Hm). Qed.
Print Assumptions C101_inputs_kept.
(** ... the order of the observations does not matter ... *)
Theorem C101_order_irrelevant : forall nx ny n f X y, reorder n f -> forall qr rcond condF, cond_ext condF ->
  forall po s nugget noise0 k m, het_train qr rcond condF nx ny n po s nugget noise0 X y k = Some m ->
  exists m', het_train qr rcond condF nx ny n po s nugget noise0 (fun i => X (f i)) (fun i => y (f i)) k = Some m' /\
  forall x, predict_value m' x = predict_value m x /\ predict_variance m' x = predict_variance m x.
Proof. exact t_het_reorder. Qed.
Print Assumptions C101_order_irrelevant.
(** ... with a constant trend and positive theta training succeeds as soon as two inputs differ; noise0 must
    have length one or the number of distinct inputs ... *)
Theorem C101_trains : forall c theta nx n X y nugget s0, c <> ActExp -> (forall j, (j < nx)%nat -> 0 < theta j) -> 0 <= s0 ->
  (exists i j, (i < n)%nat /\ (j < n)%nat /\ ~ same nx (X i) (X j)) ->
  exists m, het_train gs_qr rcond01 cond0 nx 1 n PConstant (KStd c theta) nugget [s0] X (fun i _ => y i) 0 = Some m.
Proof. exact t_het_trains. Qed.
Print Assumptions C101_trains.
Theorem C101_noise0_length : forall qr rcond condF nx ny n po s nugget noise0 X y k m, het_train qr rcond condF nx ny n po s nugget noise0 X y k = Some m ->
  length noise0 = 1%nat \/ length noise0 = m_nt m.
Proof. exact t_het_noise0_length. Qed.
Print Assumptions C101_noise0_length.
(** ... one output is predicted at any number of points ... *)
Theorem C101_one_output : forall m pts, het_predict 1 m pts = Some (map (fun x => [predict_value (m 0%nat) x]) pts).
Proof. exact t_het_one_output. Qed.
Print Assumptions C101_one_output.
(** ... but with several outputs prediction fails except at a single point, and there all outputs get the same
    standardised value. *)
Theorem C101_several_outputs_refuted : forall ny m pts, (2 <= ny)%nat -> (exists v, het_predict ny m pts = Some v) <-> length pts = 1%nat.
Proof. exact t_het_shape. Qed.
Print Assumptions C101_several_outputs_refuted.
Theorem C101_outputs_tied : forall qr rcond condF nx ny n po s nugget noise0 X y k k' m m', het_train qr rcond condF nx ny n po s nugget noise0 X y k = Some m ->
  het_train qr rcond condF nx ny n po s nugget noise0 X y k' = Some m' -> forall x,
  (predict_value m x - mean n (fun i => y i k)) / scale1 n (fun i => y i k) = (predict_value m' x - mean n (fun i => y i k')) / scale1 n (fun i => y i k').
Proof. exact t_het_outputs_tied. Qed.
Print Assumptions C101_outputs_tied.
(** three observations, two of them at the same input with different outputs *)
Example C101_nonvacuous : exists m, het_train gs_qr rcond01 cond0 1 1 3 PConstant (KStd SquarExp (fun _ => 1)) 0 [0]
  (fun i _ => if Nat.eqb i 2 then 1 else 0) (fun i _ => INR i) 0 = Some m /\ qr_contract gs_qr /\ rcond_contract rcond01 /\ cond_ext cond0 /\ reorder 3 (fun i => (2 - i)%nat).
Proof.
  destruct (t_het_trains SquarExp (fun _ => 1) 1 3 (fun i _ => if Nat.eqb i 2 then 1 else 0) INR 0 0) as (m & E); [discriminate|intros; lra|lra| |].
  - exists 0%nat, 2%nat. split; [lia|]. split; [lia|]. intros H. specialize (H 0%nat ltac:(lia)). cbn in H. lra.
  - exists m. split; [exact E|]. split; [exact gs_contract|]. split; [exact rcond01_contract|]. split; [intros n p F F' H; reflexivity|]. split; intros; lia.
Qed.
