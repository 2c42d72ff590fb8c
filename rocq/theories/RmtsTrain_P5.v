From Coq Require Import Reals ZArith Arith Bool List Lia Lra.
From Verif Require Import RSum Mat LineSearch_M Index_M Rmtb_M Rmtc_M RmtsTrain_M RmtsTrain_P RmtsTrain_P2 RmtsTrain_P3 RmtsTrain_P4.
Import ListNotations.
Open Scope list_scope.
Open Scope R_scope.
Lemma weights_zero_first gw nx keys : approx_weights gw nx None (0%nat :: keys) = Some (map (fun kx => (kx, 1)) (0%nat :: keys)).
Proof. cbn. rewrite weights_some. reflexivity. Qed.
Lemma weights_refuted :
  ~ (forall grad_weight nx, approx_weights grad_weight nx None [0%nat; 1%nat] = Some [(0%nat, 1); (1%nat, grad_weight / nx)]).
Proof. intros H. specialize (H 0 1). cbn in H. injection H as H. lra. Qed.
Lemma quadratic_training_min : forall n H blocks yt solve, msym n H -> mpd n H -> (forall b, In b blocks -> 0 <= b_c b) ->
  (forall M r, msym n M -> mpd n M -> forall k, (k < n)%nat -> mv n M (solve M r) k = r k) ->
  forall bf maxiter tol, (1 <= bf)%nat -> 0 <= tol -> tol < opt_norm n H blocks 2 yt (fun _ => 0) ->
  exists sol mtx, rmts_train n H blocks yt solve (backtracking_search n bf) 2 maxiter tol = Trained sol mtx /\
    (forall sol', (exists i, (i < n)%nat /\ sol' i <> sol i) -> opt_func n H blocks 2 yt sol < opt_func n H blocks 2 yt sol').
Proof.
  intros n H blocks yt solve S P C E bf m tol B T L. destruct (quadratic_training n H blocks yt solve S P C E bf m tol B T L) as (sol & mtx & A & Z & _).
  exists sol, mtx. split; [exact A|]. apply stationary_min; auto.
Qed.
Lemma nonvac72 : exists (solve : mat -> vec -> vec), (forall M r, msym 1 M -> mpd 1 M -> forall k, (k < 1)%nat -> mv 1 M (solve M r) k = r k) /\
  msym 1 (reg_hess 1) /\ mpd 1 (reg_hess 1) /\
  0 < opt_norm 1 (reg_hess 1) [mkB 0 1 (fun _ _ => 1) 1] 2 (fun _ _ => 1) (fun _ => 0).
Proof.
  exists (fun M r k => r k / M k k). split; [|split; [|split]].
  - intros M r _ P k Hk. replace k with 0%nat by lia. unfold mv. cbn.
    assert (Q := P (fun _ => 1) (ex_intro _ 0%nat (conj Nat.lt_0_1 R1_neq_R0))). unfold dot, mv in Q. cbn in Q. field. lra.
  - apply (full_hess_sym 1 1 1 false (fun _ _ => 0)). intros i j _ _. reflexivity.
  - intros x (i & Hi & N). replace i with 0%nat in N by lia. unfold dot, mv, reg_hess. cbn. nra.
  - unfold opt_norm. apply sqrt_lt_R0. unfold dot, opt_grad, resid, mv, tr, reg_hess. cbn. lra.
Qed.
Lemma nonvac75 : forall k, (k < 1)%nat -> opt_grad 1 (reg_hess 1) [mkB 0 1 (fun _ _ => 1) 1] 2 (fun _ _ => 1) (fun _ => 1 / 2) k = 0.
Proof. intros k Hk. replace k with 0%nat by lia. unfold opt_grad, resid, mv, tr, reg_hess. cbn. field. Qed.
