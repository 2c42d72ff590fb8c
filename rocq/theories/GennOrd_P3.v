(** Proofs for C118: with real mini-batches the order of the examples does matter. *)
From Coq Require Import Reals ZArith Arith Bool List Permutation Lia Lra FunctionalExtensionality.
From Verif Require Import RSum Genn_M GennOpt_M GennTrain_M GennOrd_S GennOrd_P GennOrd_P2.
From Verif Require Het_S.
Import ListNotations.
Open Scope list_scope.
Open Scope R_scope.
Definition pm (e : nat) : R := if Nat.even e then - (1) else 1.
(** four examples: the line y = x at the first two, y = - x at the last two *)
Definition wx : table := {| t_rows := 4; t_cols := 1; t_val := fun e _ => pm e |}.
Definition wy : table := {| t_rows := 4; t_cols := 1; t_val := fun e _ => if Nat.ltb e 2 then pm e else - pm e |}.
Definition wd : table := {| t_rows := 4; t_cols := 1; t_val := fun _ _ => 0 |}.
Definition wtp : points := fun k => match k with 0%nat => Some (wx, wy) | 1%nat => Some (wx, wd) | _ => None end.
Definition halves (e : nat) : nat := ((e + 2) mod 4)%nat.
Definition wo : goptions := {| o_alpha := 1; o_beta1 := 9 / 10; o_beta2 := 99 / 100; o_lambd := 0; o_gamma := 0; o_deep := 0; o_wide := 0; o_batch := 2; o_iterations := 1; o_epochs := 1; o_seed := None |}.
Definition wtrain (tp : points) := genn_train unit (fun _ => tt) (fun _ n => (seq 0 n, tt)) (fun _ _ => (fun _ => 0, tt)) (fun _ => tt) 2 wo tp tt.
Lemma EPS_pos : 0 < EPS. Proof. unfold EPS. apply Rinv_0_lt_compat. apply pow_lt. lra. Qed.
Lemma EPS_small : EPS < 1. Proof. unfold EPS. rewrite <- Rinv_1. apply Rinv_lt_contravar; [rewrite Rmult_1_l; apply pow_lt; lra|]. apply Rlt_pow_R1; [lra|lia]. Qed.
Notation KW := (W 1 0 0).
Notation KB := (B 1 0).
Section OneBatch.
Variables (b : batch) (s : R) (J : arr3).
Hypothesis Hm : b_size b = 2%nat.
Hypothesis HJ : b_J b = Some J.
Hypothesis X0 : b_X b 0%nat 0%nat = - (1).
Hypothesis X1 : b_X b 0%nat 1%nat = 1.
Hypothesis Y0 : b_Y b 0%nat 0%nat = - s.
Hypothesis Y1 : b_Y b 0%nat 1%nat = s.
Lemma w_cost p : batch_cost [1; 1]%nat 1 1 b 0 0 p = Some (((p KW - s) ^ 2 + p KB ^ 2) / 2).
Proof.
  unfold batch_cost, cost, lse, layers. rewrite HJ, Hm. cbn -[Rmax Rmin pow]. f_equal. unfold linear, enhancement. cbn -[Rmax Rmin pow]. rewrite ?X0, ?X1, ?Y0, ?Y1. rewrite !Rmax_left by lra. rewrite ?Rmin_left by lra. cbn. field.
Qed.
Lemma w_grad p : exists g, batch_grad [1; 1]%nat 1 b 0 0 p = Some g /\ g KW = p KW - s /\ g KB = p KB.
Proof.
  unfold batch_grad, grad, layers. rewrite HJ, Hm. cbn -[pow]. destruct (Req_EM_T 0 0) as [_|N]; [|contradiction]. eexists. split; [reflexivity|]. cbn. unfold linear. cbn. rewrite ?X0, ?X1, ?Y0, ?Y1. split; field.
Qed.
Definition step (w : R) : R := w - 1 / 2 * (w - s) / (sqrt ((w - s) ^ 2) + EPS).
Lemma sqrt_sq_ge d : 1 <= d ^ 2 -> 1 <= sqrt (d ^ 2).
Proof. intros H. rewrite <- sqrt_1 at 1. apply sqrt_le_1; lra. Qed.
Lemma step_closer d : 1 <= d ^ 2 -> (d - 1 / 2 * d / (sqrt (d ^ 2) + EPS)) ^ 2 < d ^ 2.
Proof.
  intros H. pose proof (sqrt_sq_ge d H) as Q. pose proof EPS_pos as E. set (q := sqrt (d ^ 2) + EPS) in *. assert (Hq : 1 < q) by (unfold q; lra).
  assert (I0 : 0 < / q) by (apply Rinv_0_lt_compat; lra). assert (I1 : / q < 1) by (rewrite <- Rinv_1; apply Rinv_lt_contravar; lra).
  replace (d - 1 / 2 * d / q) with (d * (1 - / q / 2)) by (field; lra). rewrite Rpow_mult_distr. assert ((1 - / q / 2) ^ 2 < 1) by nra. nra.
Qed.
Lemma w_opt p : p KB = 0 -> 1 <= (p KW - s) ^ 2 -> exists p' st h,
  optimize 2 Adam (batch_cost [1; 1]%nat 1 1 b 0 0) (batch_grad [1; 1]%nat 1 b 0 0) 1 1 p (new_optimizer (9 / 10) (99 / 100)) = Ret (p', st, h) /\ p' KW = step (p KW) /\ p' KB = 0.
Proof.
  intros HB Hd. destruct (w_grad p) as (g & Eg & GW & GB). unfold optimize. rewrite w_cost. cbn [rlift rbind optimize_loop]. rewrite Eg. cbn [rlift rbind]. unfold backtracking_line_search.
  rewrite Rmin_right by lra. rewrite Rmax_right by lra. cbn [search_loop update Nat.add new_optimizer mom1 mom2 zeros_if_none beta_1 beta_2]. rewrite !w_cost. cbn [rlift rbind].
  assert (XW : p KW - 1 * (1 / 2) * ((9 / 10 * 0 + (1 - 9 / 10) * g KW) / (1 - (9 / 10) ^ 1)) / (sqrt ((99 / 100 * 0 + (1 - 99 / 100) * (g KW * g KW)) / (1 - (99 / 100) ^ 1)) + EPS) = step (p KW)).
  { unfold step. rewrite GW. f_equal. f_equal; [field|]. f_equal. f_equal. f_equal. field. }
  assert (XB : p KB - 1 * (1 / 2) * ((9 / 10 * 0 + (1 - 9 / 10) * g KB) / (1 - (9 / 10) ^ 1)) / (sqrt ((99 / 100 * 0 + (1 - 99 / 100) * (g KB * g KB)) / (1 - (99 / 100) ^ 1)) + EPS) = 0).
  { rewrite GB, HB. unfold Rdiv. ring. }
  rewrite XW, XB. rewrite HB. pose proof (step_closer (p KW - s) Hd) as C.
  assert (ES : step (p KW) - s = p KW - s - 1 / 2 * (p KW - s) / (sqrt ((p KW - s) ^ 2) + EPS)) by (unfold step; ring).
  destruct (Rlt_dec _ _) as [_|N]; [|exfalso; apply N; rewrite ES; lra]. cbn [rlift rbind]. rewrite w_cost. cbn [rlift rbind Nat.ltb Nat.leb optimize_loop].
  do 3 eexists. split; [reflexivity|]. split; [exact XW|exact XB].
Qed.
End OneBatch.
(** the network trained on two batches with slopes s and - s *)
Definition delta : R := 1 / 2 / (1 + EPS).
Lemma two_steps s : s = 1 \/ s = - (1) -> step s 0 = s * delta /\ step (- s) (s * delta) = s * (delta - 1 / 2 * (1 + delta) / (1 + delta + EPS)) /\ 1 <= (0 - s) ^ 2 /\ 1 <= (s * delta - - s) ^ 2.
Proof.
  intros Hs. pose proof EPS_pos as E. assert (D : 0 < delta) by (unfold delta; apply Rdiv_lt_0_compat; lra).
  assert (Q1 : sqrt ((0 - s) ^ 2) = 1). { replace ((0 - s) ^ 2) with 1 by (destruct Hs as [-> | ->]; ring). apply sqrt_1. }
  assert (Q2 : sqrt ((s * delta - - s) ^ 2) = 1 + delta). { replace ((s * delta - - s) ^ 2) with ((1 + delta) ^ 2) by (destruct Hs as [-> | ->]; ring). rewrite sqrt_pow2 by lra. reflexivity. }
  split; [|split; [|split]].
  - unfold step. rewrite Q1. unfold delta. field. lra.
  - unfold step. rewrite Q2. field. lra.
  - destruct Hs as [-> | ->]; lra.
  - destruct Hs as [-> | ->]; nra.
Qed.
Lemma last_step : delta - 1 / 2 * (1 + delta) / (1 + delta + EPS) < 0.
Proof.
  pose proof EPS_pos as E. assert (D : 0 < delta) by (unfold delta; apply Rdiv_lt_0_compat; lra).
  assert (H : 1 / 2 * (1 + delta) / (1 + delta + EPS) - 1 / 2 / (1 + EPS) = 1 / 2 * (EPS * delta) / ((1 + EPS) * (1 + delta + EPS))) by (field; split; lra).
  assert (P : 0 < 1 / 2 * (EPS * delta) / ((1 + EPS) * (1 + delta + EPS))). { apply Rdiv_lt_0_compat; [|nra]. assert (0 < EPS * delta) by (apply Rmult_lt_0_compat; assumption). lra. }
  change (1 / 2 / (1 + EPS)) with delta in H. lra.
Qed.
Lemma w_batches X Y J : random_mini_batches unit (fun _ => tt) (fun _ n => (seq 0 n, tt)) (fun _ => tt) None 0 4 X Y J 2 =
  (Ret [columns 0 2 (take_cols (seq 0 4) X) (take_cols (seq 0 4) Y) (option_map (take_cols3 (seq 0 4)) J); columns 2 2 (take_cols (seq 0 4) X) (take_cols (seq 0 4) Y) (option_map (take_cols3 (seq 0 4)) J)], tt).
Proof. reflexivity. Qed.
Lemma wtrained tp s X Y J : s = 1 \/ s = - (1) -> smt_to_genn tp = Ret (4%nat, 1%nat, 1%nat, X, Y, J) ->
  X 0%nat 0%nat = - (1) -> X 0%nat 1%nat = 1 -> X 0%nat 2%nat = - (1) -> X 0%nat 3%nat = 1 -> Y 0%nat 0%nat = - s -> Y 0%nat 1%nat = s -> Y 0%nat 2%nat = s -> Y 0%nat 3%nat = - s ->
  exists n h, wtrain tp = Ret (n, h, tt) /\ net_params n KW = s * (delta - 1 / 2 * (1 + delta) / (1 + delta + EPS)).
Proof.
  intros Hs ET X0 X1 X2 X3 Y0 Y1 Y2 Y3.
  assert (MX : mean 4 (X 0%nat) = 0) by (unfold mean; cbn [rsum]; rewrite X0, X1, X2, X3; cbn; field).
  assert (MY : mean 4 (Y 0%nat) = 0) by (unfold mean; cbn [rsum]; rewrite Y0, Y1, Y2, Y3; cbn; field).
  assert (SX : std 4 (X 0%nat) = 1). { unfold std. rewrite MX. cbn [rsum]. rewrite X0, X1, X2, X3. rewrite <- sqrt_1 at 5. f_equal. cbn. field. }
  assert (SY : std 4 (Y 0%nat) = 1). { unfold std. rewrite MY. cbn [rsum]. rewrite Y0, Y1, Y2, Y3. rewrite <- sqrt_1. f_equal. destruct Hs as [-> | ->]; cbn; field. }
  unfold wtrain, genn_train. rewrite ET. cbn [rbind o_deep o_wide wo]. change (dims_of 1 1 0 0) with [1; 1]%nat. unfold model_train, normalize_data. cbn [o_batch wo Z.eqb o_epochs train_epochs o_seed].
  rewrite w_batches. cbn [rbind]. set (sc := scale_of 4 X Y).
  set (b1 := columns 0 2 _ _ _). set (b2 := columns 2 2 _ _ _).
  assert (NX : forall e, normed sc X 0%nat e = X 0%nat e) by (intros e; unfold normed, sc, scale_of; cbn [mu_x sigma_x]; rewrite MX, SX; field).
  assert (NY : forall e, normed_y sc Y 0%nat e = Y 0%nat e) by (intros e; unfold normed_y, sc, scale_of; cbn [mu_y sigma_y]; rewrite MY, SY; field).
  destruct (two_steps s Hs) as (T1 & T2 & D1 & D2).
  set (p0 := (fun _ : key => 0) : params).
  destruct (w_opt b1 s (from_col3 0 (take_cols3 (seq 0 4) (normed_j sc J)))) with (p := p0) as (p1 & st1 & h1 & O1 & W1 & B1).
  { reflexivity. } { reflexivity. } { exact (eq_trans (NX 0%nat) X0). } { exact (eq_trans (NX 1%nat) X1). } { exact (eq_trans (NY 0%nat) Y0). } { exact (eq_trans (NY 1%nat) Y1). } { reflexivity. } { exact D1. }
  change (p0 KW) with 0 in W1. rewrite T1 in W1.
  destruct (w_opt b2 (- s) (from_col3 2 (take_cols3 (seq 0 4) (normed_j sc J)))) with (p := p1) as (p2 & st2 & h2 & O2 & W2 & B2).
  { reflexivity. } { reflexivity. } { exact (eq_trans (NX 2%nat) X2). } { exact (eq_trans (NX 3%nat) X3). } { rewrite Ropp_involutive. exact (eq_trans (NY 2%nat) Y2). } { exact (eq_trans (NY 3%nat) Y3). } { exact B1. } { rewrite W1. exact D2. }
  rewrite W1, T2 in W2. cbn [train_batches o_lambd o_gamma o_alpha o_iterations o_beta1 o_beta2 wo]. rewrite O1. cbn [rbind]. rewrite O2. cbn [rbind]. do 2 eexists. split; [reflexivity|]. exact W2.
Qed.
Lemma halves_reorder : Het_S.reorder 4 halves.
Proof. split; [intros i _; unfold halves; apply Nat.mod_upper_bound; lia|]. intros i j Hi Hj. destruct i as [|[|[|[|i]]]]; try lia; destruct j as [|[|[|[|j]]]]; try lia; vm_compute; lia. Qed.
Lemma wtp_ok : exists X Y J, smt_to_genn wtp = Ret (4%nat, 1%nat, 1%nat, X, Y, J) /\ (forall e, X 0%nat e = pm e) /\ forall e, Y 0%nat e = if Nat.ltb e 2 then pm e else - pm e.
Proof.
  unfold smt_to_genn. cbn [wtp]. cbn [t_cols wx seq forallb]. unfold derivative_ok. rewrite eqb_reflx. cbn [wx wy wd t_rows t_cols Nat.eqb andb]. do 3 eexists. split; [reflexivity|]. split; intros e; reflexivity.
Qed.
Lemma minibatch_order : exists n h n' h', wtrain wtp = Ret (n, h, tt) /\ wtrain (rearranged halves wtp) = Ret (n', h', tt) /\ net_params n KW < 0 < net_params n' KW.
Proof.
  destruct wtp_ok as (X & Y & J & ET & HX & HY). pose proof (to_genn_rows halves wtp wx wy eq_refl halves_reorder) as ER. rewrite ET in ER.
  destruct (wtrained wtp 1 X Y J (or_introl eq_refl) ET) as (n & h & E1 & W1); try (rewrite ?HX, ?HY; cbn; lra).
  destruct (wtrained (rearranged halves wtp) (- (1)) (ga halves X) (ga halves Y) (ga3 halves J) (or_intror eq_refl) ER) as (n' & h' & E2 & W2); try (unfold ga; rewrite ?HX, ?HY; cbn; lra).
  exists n, h, n', h'. split; [exact E1|]. split; [exact E2|]. rewrite W1, W2. pose proof last_step. lra.
Qed.
