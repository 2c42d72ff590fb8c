(** Property C111: RMTS models with several outputs. *)
From Coq Require Import Reals Arith Bool List Lia Lra.
From Verif Require Import RSum Mat RmtsTrain_M RmtsMulti_M RmtsMulti_P RmtsMulti_P2.
Import ListNotations.
Open Scope list_scope.
Open Scope R_scope.

(** C111. Trained together, every output gets the solution it gets when it is trained alone - or the zero solution where training it alone
    would have raised (C73) - whatever matrix an earlier training left behind. *)
Theorem C111_each_output_as_alone : forall n H blocks solve search p maxiter tol yts m sols M,
  train_all n H blocks solve search p maxiter tol yts m = TrainedAll sols M ->
  length sols = length yts /\ forall iy yt, nth_error yts iy = Some yt -> exists sol, nth_error sols iy = Some sol /\
    ((exists M', rmts_train n H blocks yt solve search p maxiter tol = Trained sol M') \/
     (rmts_train n H blocks yt solve search p maxiter tol = AttributeError /\ sol = fun _ => 0)).
Proof. exact trained_each. Qed.
Print Assumptions C111_each_output_as_alone.
(** Training raises exactly when every output alone raises, and a line search fails exactly when it fails for some output alone. *)
Theorem C111_raises_iff : forall n H blocks solve search p maxiter tol yts m,
  (train_all n H blocks solve search p maxiter tol yts m = AttributeErrorAll <-> m = None /\ forall yt, In yt yts -> rmts_train n H blocks yt solve search p maxiter tol = AttributeError) /\
  (train_all n H blocks solve search p maxiter tol yts m = NoLineSearchResultAll <-> exists yt, In yt yts /\ rmts_train n H blocks yt solve search p maxiter tol = NoLineSearchResult).
Proof. intros. split; [apply error_iff|apply none_iff]. Qed.
Print Assumptions C111_raises_iff.
(** The one matrix kept for the output derivatives is that of some output trained alone: the derivatives of that output are as alone. *)
Theorem C111_kept_matrix : forall n H blocks solve search p maxiter tol yts sols M, train_all n H blocks solve search p maxiter tol yts None = TrainedAll sols M ->
  exists iy yt sol, nth_error yts iy = Some yt /\ nth_error sols iy = Some sol /\ rmts_train n H blocks yt solve search p maxiter tol = Trained sol M /\
  forall dsolve b dy t, output_derivative_all n blocks dsolve M p yts sols iy b dy t = output_derivative n dsolve M blocks p yt sol b dy t.
Proof.
  intros n H blocks solve search p maxiter tol yts sols M T. destruct (kept _ _ _ _ _ _ _ _ _ _ _ T) as (i & yt & sol & M' & E1 & E2 & E3 & ->).
  exists i, yt, sol. split; [exact E1|]. split; [exact E2|]. split; [exact E3|]. intros. unfold output_derivative_all. rewrite (nth_error_nth _ _ _ E1), (nth_error_nth _ _ _ E2). reflexivity.
Qed.
Print Assumptions C111_kept_matrix.
(** With approximation order 2 (the default) this is harmless: for every output, retraining on changed outputs moves the prediction by exactly
    the predicted output derivatives of that output (C75 for several outputs). *)
Theorem C111_order_two_derivatives : forall n H blocks solve search, msym n H -> mpd n H -> (forall b, In b blocks -> 0 <= b_c b) ->
  forall dsolve, (forall M r, msym n M -> mpd n M -> forall k, (k < n)%nat -> mv n M (dsolve M r) k = r k) ->
  forall maxiter tol yts sols M, train_all n H blocks solve search 2 maxiter tol yts None = TrainedAll sols M ->
  forall iy yt sol yt' sol' dy, nth_error yts iy = Some yt -> nth_error sols iy = Some sol ->
  (forall k, (k < n)%nat -> opt_grad n H blocks 2 yt sol k = 0) -> (forall k, (k < n)%nat -> opt_grad n H blocks 2 yt' sol' k = 0) ->
  rsum n (fun j => dy j * sol' j) - rsum n (fun j => dy j * sol j) =
  lsum (fun b => rsum (b_nt b) (fun t => output_derivative_all n blocks dsolve M 2 yts sols iy b dy t * (yt' (b_kx b) t - yt (b_kx b) t))) blocks.
Proof. exact order2_exact. Qed.
Print Assumptions C111_order_two_derivatives.
(** With order 4 the derivatives of an output can be computed with another output's matrix. *)
Theorem C111_order_four_derivatives_refuted : exists sols M M1, train_all 1 (reg_hess 1) (bl 1) sv full 4 1 0 [ob 1; ob 2] None = TrainedAll sols M /\
  rmts_train 1 (reg_hess 1) (bl 1) (ob 1) sv full 4 1 0 = Trained (nth 0 sols (fun _ => 0)) M1 /\
  output_derivative_all 1 (bl 1) sv M 4 [ob 1; ob 2] sols 0 (mkB 0 1 (fun _ _ => 1) 1) (fun _ => 1) 0 <>
  output_derivative 1 sv M1 (bl 1) 4 (ob 1) (nth 0 sols (fun _ => 0)) (mkB 0 1 (fun _ _ => 1) 1) (fun _ => 1) 0.
Proof. exact order4_wrong. Qed.
Print Assumptions C111_order_four_derivatives_refuted.
(** Retraining a model with outputs that need no iteration (all zero, say) keeps the matrix of the earlier training data ... *)
Theorem C111_retraining_keeps_matrix : forall n H blocks solve search p maxiter tol yts m,
  (forall yt, In yt yts -> rmts_train n H blocks yt solve search p maxiter tol = AttributeError) ->
  train_all n H blocks solve search p maxiter tol yts (Some m) = TrainedAll (map (fun _ => fun _ => 0) yts) m.
Proof. exact stale. Qed.
Print Assumptions C111_retraining_keeps_matrix.
(** ... so that its output derivatives are wrong even for order 2. *)
Theorem C111_retrained_derivatives_refuted : exists sols M sols2, train_all 1 (reg_hess 1) (bl 1) sv full 2 1 0 [ob 1] None = TrainedAll sols M /\
  train_all 1 (reg_hess 1) (bl 2) sv full 2 1 0 [ob 0] (Some M) = TrainedAll sols2 M /\
  opt_grad 1 (reg_hess 1) (bl 2) 2 (ob 0) (nth 0 sols2 (fun _ => 0)) 0%nat = 0 /\
  output_derivative_all 1 (bl 2) sv M 2 [ob 0] sols2 0 (mkB 0 1 (fun _ _ => 2) 1) (fun _ => 1) 0 <>
  output_derivative 1 sv (opt_hess 1 (reg_hess 1) (bl 2) 2 (ob 0) (nth 0 sols2 (fun _ => 0))) (bl 2) 2 (ob 0) (nth 0 sols2 (fun _ => 0)) (mkB 0 1 (fun _ _ => 2) 1) (fun _ => 1) 0.
Proof. exact stale_wrong. Qed.
Print Assumptions C111_retrained_derivatives_refuted.
