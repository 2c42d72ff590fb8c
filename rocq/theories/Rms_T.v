(** C56 *)
From Coq Require Import Reals Arith Bool List Lia Lra.
From Verif Require Import RSum Rms_M.
Import ListNotations.
Open Scope R_scope.
(** relative root-mean-square error of predictions p against data y over n points *)
Definition rms_relative (n : nat) (p y : nat -> R) : R := sqrt (rsum n (fun i => (p i - y i) ^ 2) / INR n) / sqrt (rsum n (fun i => y i ^ 2) / INR n).
(** the single-output predictions of a model at the points, values or derivatives *)
Definition predictions (sm : surrogate) (xe : list point) (kx : option nat) : arr := match kx with None => predict_values sm xe | Some k => predict_derivatives sm xe k end.

Lemma pow2_gt_0 x : x <> 0 -> 0 < x ^ 2.
Proof. intros H. rewrite <- Rsqr_pow2. apply Rsqr_pos_lt. exact H. Qed.
Lemma norm1 n (a : nat -> nat -> R) : norm n 1 a = sqrt (rsum n (fun i => a i 0%nat ^ 2)).
Proof. unfold norm. f_equal. apply rsum_ext. intros i _. cbn [rsum]. ring. Qed.
Lemma sumsq_nonneg n (f : nat -> R) : 0 <= rsum n (fun i => f i ^ 2).
Proof. apply rsum_nonneg. intros; apply pow2_ge_0. Qed.
Lemma sqrt_zero x : 0 <= x -> sqrt x = 0 -> x = 0.
Proof. intros H E. apply sqrt_eq_0; assumption. Qed.
Lemma nonzero_sum n (f : nat -> R) : (exists i, (i < n)%nat /\ f i <> 0) -> 0 < rsum n (fun i => f i ^ 2).
Proof. intros (i & Hi & H). apply (rsum_pos n (fun i => f i ^ 2) i); [intros; apply pow2_ge_0|exact Hi|apply pow2_gt_0; exact H]. Qed.
Lemma rms_eq n p y : (exists i, (i < n)%nat /\ y i <> 0) -> sqrt (rsum n (fun i => (p i - y i) ^ 2)) / sqrt (rsum n (fun i => y i ^ 2)) = rms_relative n p y.
Proof.
  intros H. pose proof (nonzero_sum n y H) as P. destruct H as (i & Hi & _). unfold rms_relative. assert (N : 0 < INR n) by (apply lt_0_INR; lia).
  rewrite (sqrt_div_alt _ _ N), (sqrt_div_alt _ (INR n) N). field. split; [assert (0 < sqrt (INR n)) by (apply sqrt_lt_R0; exact N); lra|assert (0 < sqrt (rsum n (fun i => y i ^ 2))) by (apply sqrt_lt_R0; exact P); lra].
Qed.
(** points and one output per point given: the relative RMS error of the values, or of the derivatives when kx is given *)
Theorem C56_given_points : forall sm xe ye kx, length ye = length xe -> cols (predictions sm xe kx) = 1%nat -> (exists y, In y ye /\ y <> 0) ->
  compute_rms_error sm (Some xe) (Some ye) kx = Value (Num (rms_relative (length xe) (fun i => ent (predictions sm xe kx) i 0%nat) (fun i => nth i ye 0))).
Proof.
  intros sm xe ye kx L C (y & Hy & Ny). unfold compute_rms_error. rewrite L, Nat.eqb_refl. cbv zeta. fold (predictions sm xe kx). unfold relerr, sub. cbn [cols ent]. rewrite C, Nat.eqb_refl. cbn [cols ent]. rewrite !norm1.
  destruct (In_nth ye y 0 Hy) as (i & Hi & Ei). assert (H : exists i, (i < length xe)%nat /\ nth i ye 0 <> 0) by (exists i; rewrite <- L, Ei; split; assumption).
  unfold fdiv. pose proof (nonzero_sum _ (fun i => nth i ye 0) H) as P. destruct (Req_EM_T _ 0) as [E|E]; [apply sqrt_zero in E; [lra|lra]|]. do 2 f_equal. apply (rms_eq _ (fun i => ent (predictions sm xe kx) i 0%nat) (fun i => nth i ye 0) H).
Qed.
Print Assumptions C56_given_points.
(** nothing given: the relative error over all outputs of the training points, zero exactly when the model reproduces them *)
Theorem C56_training_points : forall sm xt yt, training sm 0 = Some (xt, yt) -> cols (predict_values sm xt) = cols yt -> (exists i j, (i < length xt)%nat /\ (j < cols yt)%nat /\ ent yt i j <> 0) ->
  exists e, compute_rms_error sm None None None = Value (Num e) /\ 0 <= e /\
  e ^ 2 * rsum (length xt) (fun i => rsum (cols yt) (fun j => ent yt i j ^ 2)) = rsum (length xt) (fun i => rsum (cols yt) (fun j => (ent (predict_values sm xt) i j - ent yt i j) ^ 2)) /\
  (e = 0 <-> forall i j, (i < length xt)%nat -> (j < cols yt)%nat -> ent (predict_values sm xt) i j = ent yt i j).
Proof.
  intros sm xt yt T C (i & j & Hi & Hj & N). unfold compute_rms_error. rewrite T. unfold relerr, sub. rewrite C, Nat.eqb_refl. cbn [cols ent].
  set (p := predict_values sm xt) in *. unfold norm. set (a := rsum _ _). set (b := rsum (length xt) (fun i => rsum (cols yt) (fun j => ent yt i j ^ 2))).
  assert (Pa : 0 <= a) by (apply rsum_nonneg; intros; apply rsum_nonneg; intros; apply pow2_ge_0).
  assert (Pb : 0 < b). { apply (rsum_pos _ (fun i => rsum (cols yt) (fun j => ent yt i j ^ 2)) i); [intros; apply rsum_nonneg; intros; apply pow2_ge_0|exact Hi|]. apply (rsum_pos _ (fun j => ent yt i j ^ 2) j); [intros; apply pow2_ge_0|exact Hj|apply pow2_gt_0; exact N]. }
  assert (Sb : 0 < sqrt b) by (apply sqrt_lt_R0; exact Pb). exists (sqrt a / sqrt b). unfold fdiv. destruct (Req_EM_T (sqrt b) 0) as [E|_]; [lra|]. split; [reflexivity|]. split; [unfold Rdiv; apply Rmult_le_pos; [apply sqrt_pos|left; apply Rinv_0_lt_compat; exact Sb]|]. split.
  - change (rsum (length xt) (fun i => rsum (cols yt) (fun j => (ent p i j - ent yt i j) ^ 2))) with a. transitivity (a / b * b); [|field; lra]. f_equal. unfold Rdiv. rewrite Rpow_mult_distr, pow_inv. rewrite !pow2_sqrt by lra. reflexivity.
  - split.
    + intros E i' j' Hi' Hj'. assert (A0 : a = 0). { apply sqrt_zero; [exact Pa|]. apply (Rmult_eq_reg_r (/ sqrt b)); [|apply Rinv_neq_0_compat; lra]. unfold Rdiv in E. rewrite E. ring. }
      assert (R0 : rsum (cols yt) (fun j => (ent p i' j - ent yt i' j) ^ 2) = 0) by (apply (rsum_zero_inv (length xt) (fun i => rsum (cols yt) (fun j => (ent p i j - ent yt i j) ^ 2))); [intros; apply rsum_nonneg; intros; apply pow2_ge_0|exact A0|exact Hi']).
      assert (Z : (ent p i' j' - ent yt i' j') ^ 2 = 0) by (apply (rsum_zero_inv (cols yt) (fun j => (ent p i' j - ent yt i' j) ^ 2)); [intros; apply pow2_ge_0|exact R0|exact Hj']). nra.
    + intros H. assert (A0 : a = 0). { apply rsum_zero. intros i' Hi'. apply rsum_zero. intros j' Hj'. rewrite (H i' j' Hi' Hj'). ring. } rewrite A0, sqrt_0. unfold Rdiv. ring.
Qed.
Print Assumptions C56_training_points.
(** exactly one of points and outputs: no error value at all; training derivatives: UnboundLocalError; no training values: ValueError *)
Theorem C56_other_calls : forall sm kx, (forall xe, compute_rms_error sm (Some xe) None kx = PyNone) /\ (forall ye, compute_rms_error sm None (Some ye) kx = PyNone) /\
  (forall k, compute_rms_error sm None None (Some k) = UnboundLocalError) /\ (training sm 0 = None -> compute_rms_error sm None None None = ValueError) /\
  (forall xe ye, length ye <> length xe -> compute_rms_error sm (Some xe) (Some ye) kx = ValueError).
Proof.
  intros sm kx. split; [reflexivity|]. split; [reflexivity|]. split; [reflexivity|]. split.
  - intros H. unfold compute_rms_error. rewrite H. reflexivity.
  - intros xe ye H. unfold compute_rms_error. destruct (Nat.eqb_spec (length ye) (length xe)); [contradiction|reflexivity].
Qed.
Print Assumptions C56_other_calls.
(** several outputs and given points: the single column of outputs is compared with every predicted output *)
Theorem C56_several_outputs : forall sm xe ye kx, length ye = length xe -> cols (predictions sm xe kx) <> 1%nat -> (exists y, In y ye /\ y <> 0) ->
  compute_rms_error sm (Some xe) (Some ye) kx = Value (Num (sqrt (rsum (length xe) (fun i => rsum (cols (predictions sm xe kx)) (fun j => (ent (predictions sm xe kx) i j - nth i ye 0) ^ 2))) / sqrt (rsum (length xe) (fun i => nth i ye 0 ^ 2)))).
Proof.
  intros sm xe ye kx L C (y & Hy & Ny). unfold compute_rms_error. rewrite L, Nat.eqb_refl. cbv zeta. fold (predictions sm xe kx). unfold relerr, sub. cbn [cols ent]. destruct (Nat.eqb_spec (cols (predictions sm xe kx)) 1); [contradiction|]. cbn [cols ent Nat.eqb]. rewrite (norm1 (length xe) (fun i _ => nth i ye 0)).
  destruct (In_nth ye y 0 Hy) as (i & Hi & Ei). assert (H : exists i, (i < length xe)%nat /\ nth i ye 0 <> 0) by (exists i; rewrite <- L, Ei; split; assumption).
  unfold fdiv. pose proof (nonzero_sum _ (fun i => nth i ye 0) H) as P. destruct (Req_EM_T _ 0) as [E|E]; [apply sqrt_zero in E; [lra|lra]|]. reflexivity.
Qed.
Print Assumptions C56_several_outputs.
(** all outputs zero: no finite error *)
Theorem C56_zero_data : forall sm xe ye kx, length ye = length xe -> cols (predictions sm xe kx) = 1%nat -> (forall y, In y ye -> y = 0) ->
  compute_rms_error sm (Some xe) (Some ye) kx = Value NaN \/ compute_rms_error sm (Some xe) (Some ye) kx = Value Inf.
Proof.
  intros sm xe ye kx L C Z. unfold compute_rms_error. rewrite L, Nat.eqb_refl. cbv zeta. fold (predictions sm xe kx). unfold relerr, sub. cbn [cols ent]. rewrite C, Nat.eqb_refl. cbn [cols ent]. rewrite (norm1 _ (fun i _ => nth i ye 0)).
  rewrite (rsum_zero _ (fun i => nth i ye 0 ^ 2)); [|intros i Hi; rewrite (Z (nth i ye 0)); [ring|apply nth_In; lia]]. rewrite sqrt_0. unfold fdiv. destruct (Req_EM_T 0 0); [|contradiction]. destruct (Req_EM_T _ 0); [left|right]; reflexivity.
Qed.
Print Assumptions C56_zero_data.
Example C56_nonvacuous : let sm := {| predict_values := fun _ => {| cols := 1; ent := fun i _ => INR i |}; predict_derivatives := fun _ _ => {| cols := 1; ent := fun _ _ => 1 |}; training := fun k => if Nat.eqb k 0 then Some ([fun _ => 0; fun _ => 1], {| cols := 1; ent := fun i _ => INR i |}) else None |} in
  compute_rms_error sm None None None = Value (Num 0) /\ exists y, In y [0; 1] /\ y <> 0.
Proof.
  intros sm. split; [|exists 1; split; [right; left; reflexivity|lra]].
  destruct (C56_training_points sm [fun _ => 0; fun _ => 1] {| cols := 1; ent := fun i _ => INR i |}) as (e & E1 & _ & _ & E2); [reflexivity|reflexivity|exists 1%nat, 0%nat; cbn; repeat split; try lia; lra|].
  rewrite E1. do 2 f_equal. apply E2. reflexivity.
Qed.
