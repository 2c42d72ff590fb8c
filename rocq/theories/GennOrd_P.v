(** Proofs for C118: the order of the training points, and of the shuffles, in the training of GENN with full batches. *)
From Coq Require Import Reals ZArith Arith Bool List Permutation Lia Lra FunctionalExtensionality.
From Verif Require Import RSum Genn_M GennOpt_M GennTrain_M.
From Verif Require Het_S Het_P4 Order_P1 Order_P2.
Import ListNotations.
Open Scope list_scope.
Open Scope R_scope.
Notation reorder := Het_S.reorder.
Definition ga (f : nat -> nat) (A : arr) : arr := fun i e => A i (f e).
Definition ga3 (f : nat -> nat) (A : arr3) : arr3 := fun j i e => A j i (f e).
Lemma fwd_gather f : forall ls A, L_model_forward ls (ga f A) = (ga f (fst (L_model_forward ls A)), map (fun c => (ga f (fst c), ga f (snd c))) (snd (L_model_forward ls A))).
Proof.
  induction ls as [|l ls IH]; intros A; [reflexivity|]. cbn [L_model_forward].
  change (fun i e => a_eval (act l) (linear l (ga f A) i e)) with (ga f (fun i e => a_eval (act l) (linear l A i e))). rewrite IH.
  destruct (L_model_forward ls (fun i e => a_eval (act l) (linear l A i e))) as [AL cs]. reflexivity.
Qed.
Lemma grads_gather f : forall ls A A', grads_loop ls (ga f A) (ga3 f A') = (ga3 f (fst (grads_loop ls A A')), map (fun c => (ga3 f (fst c), ga3 f (snd c))) (snd (grads_loop ls A A'))).
Proof.
  induction ls as [|l ls IH]; intros A A'; [reflexivity|]. cbn [grads_loop].
  change (fun i e => a_eval (act l) (linear l (ga f A) i e)) with (ga f (fun i e => a_eval (act l) (linear l A i e))).
  change (fun j i e => a_first (act l) (linear l (ga f A) i e) * linear' l (ga3 f A') j i e) with (ga3 f (fun j i e => a_first (act l) (linear l A i e) * linear' l A' j i e)). rewrite IH.
  destruct (grads_loop ls (fun i e => a_eval (act l) (linear l A i e)) (fun j i e => a_first (act l) (linear l A i e) * linear' l A' j i e)) as [AL cs]. reflexivity.
Qed.
Section Gather.
Variable (m : nat) (f : nat -> nat).
Hypothesis RO : reorder m f.
Lemma sumf (h : nat -> R) : rsum m (fun e => h (f e)) = rsum m h.
Proof. exact (Het_P4.rsum_reorder m f h RO). Qed.
Lemma layer_gather l c j nx lambd gamma dA dA' :
  layer_backward l (ga f (fst c), ga f (snd c)) (ga3 f (fst j), ga3 f (snd j)) nx m lambd gamma (ga f dA) (ga3 f dA') =
  let '(g, dP, dP') := layer_backward l c j nx m lambd gamma dA dA' in (g, ga f dP, ga3 f dP').
Proof.
  destruct c as [A Z], j as [Z' A']. unfold layer_backward. cbn [fst snd].
  assert (E1 : (fun i q => 1 / INR m * rsum m (fun e => a_first (act l) (ga f Z i e) * ga f dA i e * ga f A q e) + lambd / INR m * weight l i q) =
               (fun i q => 1 / INR m * rsum m (fun e => a_first (act l) (Z i e) * dA i e * A q e) + lambd / INR m * weight l i q)).
  { extensionality i. extensionality q. f_equal. f_equal. exact (sumf (fun e => a_first (act l) (Z i e) * dA i e * A q e)). }
  assert (E2 : (fun i => 1 / INR m * rsum m (fun e => a_first (act l) (ga f Z i e) * ga f dA i e)) = (fun i => 1 / INR m * rsum m (fun e => a_first (act l) (Z i e) * dA i e))).
  { extensionality i. f_equal. exact (sumf (fun e => a_first (act l) (Z i e) * dA i e)). }
  destruct (Req_EM_T gamma 0) as [G|G].
  - rewrite E1, E2. reflexivity.
  - assert (F1 : forall i q, rsum nx (fun j => gamma / INR m * (rsum m (fun e => ga3 f dA' j i e * a_second (act l) (ga f Z i e) * ga3 f Z' j i e * ga f A q e) + rsum m (fun e => ga3 f dA' j i e * a_first (act l) (ga f Z i e) * ga3 f A' j q e))) =
       rsum nx (fun j => gamma / INR m * (rsum m (fun e => dA' j i e * a_second (act l) (Z i e) * Z' j i e * A q e) + rsum m (fun e => dA' j i e * a_first (act l) (Z i e) * A' j q e)))).
    { intros i q. apply rsum_ext. intros j _. f_equal. f_equal.
      - exact (sumf (fun e => dA' j i e * a_second (act l) (Z i e) * Z' j i e * A q e)).
      - exact (sumf (fun e => dA' j i e * a_first (act l) (Z i e) * A' j q e)). }
    assert (F2 : forall i, rsum nx (fun j => gamma / INR m * rsum m (fun e => ga3 f dA' j i e * a_second (act l) (ga f Z i e) * ga3 f Z' j i e)) =
       rsum nx (fun j => gamma / INR m * rsum m (fun e => dA' j i e * a_second (act l) (Z i e) * Z' j i e))).
    { intros i. apply rsum_ext. intros j _. f_equal. exact (sumf (fun e => dA' j i e * a_second (act l) (Z i e) * Z' j i e)). }
    match goal with |- ({| dW := ?w1; db := ?b1 |}, ?p1, ?q1) = ({| dW := ?w2; db := ?b2 |}, ?p2, ?q2) => assert (W : w1 = w2); [|assert (Bq : b1 = b2); [|rewrite W, Bq; reflexivity]] end.
    + extensionality i. extensionality q. rewrite F1. f_equal. exact (f_equal (fun h => h i q) E1).
    + extensionality i. rewrite F2. f_equal. exact (f_equal (fun h => h i) E2).
Qed.
Lemma backward_gather nx lambd gamma dAL dAL' : forall ls cs js,
  backward_loop ls (map (fun c => (ga f (fst c), ga f (snd c))) cs) (map (fun c => (ga3 f (fst c), ga3 f (snd c))) js) nx m lambd gamma (ga f dAL) (ga3 f dAL') =
  let '(gs, dA, dA') := backward_loop ls cs js nx m lambd gamma dAL dAL' in (gs, ga f dA, ga3 f dA').
Proof.
  induction ls as [|l ls IH]; intros cs js; [reflexivity|]. destruct cs as [|c cs]; [reflexivity|]. destruct js as [|j js]; [reflexivity|].
  cbn [map backward_loop]. rewrite IH. destruct (backward_loop ls cs js nx m lambd gamma dAL dAL') as [[gs dA] dA']. rewrite layer_gather.
  destruct (layer_backward l c j nx m lambd gamma dA dA') as [[g dP] dP']. reflexivity.
Qed.
Lemma cost_gather ls ny nx X Y DY lambd gamma : cost ls ny nx m (ga f X) (ga f Y) (option_map (ga3 f) DY) lambd gamma = cost ls ny nx m X Y DY lambd gamma.
Proof.
  unfold cost, L_grads_forward. change eye with (ga3 f eye). rewrite fwd_gather, grads_gather. cbn [fst]. change (ga3 f eye) with eye.
  set (P := fst (L_model_forward ls X)). set (DP := fst (grads_loop ls X eye)). unfold lse.
  assert (E : rsum ny (fun k => / 2 * rsum m (fun e => (ga f P k e - ga f Y k e) * (ga f P k e - ga f Y k e))) = rsum ny (fun k => / 2 * rsum m (fun e => (P k e - Y k e) * (P k e - Y k e)))).
  { apply rsum_ext. intros k _. f_equal. exact (sumf (fun e => (P k e - Y k e) * (P k e - Y k e))). }
  rewrite E. destruct DY as [DY|]; [|reflexivity]. cbn [option_map]. destruct (Nat.eqb m 1); [reflexivity|].
  assert (E2 : enhancement ny nx m (ga3 f DY) (ga3 f DP) gamma = enhancement ny nx m DY DP gamma).
  { unfold enhancement. apply rsum_ext. intros k _. apply rsum_ext. intros j _. f_equal. exact (sumf (fun e => (DP j k e - DY j k e) * (DP j k e - DY j k e))). }
  rewrite E2. reflexivity.
Qed.
Lemma grad_gather ls nx X Y DY lambd gamma : grad ls nx m (ga f X) (ga f Y) (option_map (ga3 f) DY) lambd gamma = grad ls nx m X Y DY lambd gamma.
Proof.
  unfold grad, L_grads_forward. change (grads_loop ls (ga f X) eye) with (grads_loop ls (ga f X) (ga3 f eye)). rewrite fwd_gather, grads_gather.
  destruct (L_model_forward ls X) as [AL cs]. destruct (grads_loop ls X eye) as [JL js]. destruct DY as [DY|]; [|reflexivity]. cbn [option_map fst snd]. destruct (Nat.eqb m 1); [reflexivity|].
  change (fun k e => ga f AL k e - ga f Y k e) with (ga f (fun k e => AL k e - Y k e)). change (fun j k e => ga3 f JL j k e - ga3 f DY j k e) with (ga3 f (fun j k e => JL j k e - DY j k e)).
  rewrite backward_gather. destruct (backward_loop ls cs js nx m lambd gamma (fun k e => AL k e - Y k e) (fun j k e => JL j k e - DY j k e)) as [[gs dA] dA']. reflexivity.
Qed.
Lemma mean_gather a : mean m (fun e => a (f e)) = mean m a. Proof. unfold mean. rewrite sumf. reflexivity. Qed.
Lemma std_gather a : std m (fun e => a (f e)) = std m a.
Proof. unfold std. rewrite mean_gather. f_equal. f_equal. exact (sumf (fun e => (a e - mean m a) ^ 2)). Qed.
Lemma scale_gather X Y : scale_of m (ga f X) (ga f Y) = scale_of m X Y.
Proof. unfold scale_of. f_equal; extensionality i; try apply mean_gather; apply std_gather. Qed.
End Gather.
(** * the shuffles *)
Lemma perm_reorder (perm : list nat) m : Permutation perm (seq 0 m) -> reorder m (fun e => nth e perm 0%nat).
Proof.
  intros P. pose proof (Permutation_length P) as L. rewrite seq_length in L. split.
  - intros i Hi. assert (In (nth i perm 0%nat) (seq 0 m)) by (eapply Permutation_in; [exact P|apply nth_In; lia]). apply in_seq in H. lia.
  - intros i j Hi Hj E. assert (ND : NoDup perm) by (eapply Permutation_NoDup; [apply Permutation_sym; exact P|apply seq_NoDup]). apply (proj1 (NoDup_nth perm 0%nat) ND); [lia|lia|exact E].
Qed.
Definition full (m : nat) (size : Z) : Prop := size = 0%Z \/ (Z.of_nat m <= size)%Z.
(** a full batch: one batch with all examples *)
Lemma one_batch perm m X Y J size : (1 <= m)%nat -> (Z.of_nat m <= size)%Z -> mini_batches perm m X Y J size = Ret [columns 0 m (take_cols perm X) (take_cols perm Y) (option_map (take_cols3 perm) J)].
Proof.
  intros H1 H. unfold mini_batches. rewrite Z.min_r by exact H. destruct (Z.eqb_spec (Z.of_nat m) 0); [lia|]. rewrite Z.div_same, Z.mod_same by lia. cbn. rewrite Nat2Z.id. reflexivity.
Qed.
Lemma no_batch perm X Y J size : (0 <= size)%Z -> mini_batches perm 0 X Y J size = Raise.
Proof. intros H. unfold mini_batches. rewrite Z.min_r by exact H. reflexivity. Qed.
Definition std_batch (m : nat) (X Y : arr) (J : option arr3) : batch := {| b_size := m; b_X := X; b_Y := Y; b_J := J |}.
Lemma batch_cost_perm dims nx ny m perm X Y J lambd gamma : reorder m (fun e => nth e perm 0%nat) ->
  batch_cost dims nx ny (columns 0 m (take_cols perm X) (take_cols perm Y) (option_map (take_cols3 perm) J)) lambd gamma = batch_cost dims nx ny (std_batch m X Y J) lambd gamma.
Proof.
  intros RO. extensionality p. unfold batch_cost. cbn [b_size b_X b_Y b_J columns std_batch]. rewrite <- (cost_gather m _ RO (layers dims p) ny nx X Y J). destruct J; reflexivity.
Qed.
Lemma batch_grad_perm dims nx m perm X Y J lambd gamma : reorder m (fun e => nth e perm 0%nat) ->
  batch_grad dims nx (columns 0 m (take_cols perm X) (take_cols perm Y) (option_map (take_cols3 perm) J)) lambd gamma = batch_grad dims nx (std_batch m X Y J) lambd gamma.
Proof.
  intros RO. extensionality p. unfold batch_grad. cbn [b_size b_X b_Y b_J columns std_batch]. rewrite <- (grad_gather m _ RO (layers dims p) nx X Y J). destruct J; reflexivity.
Qed.
Lemma batch_cost_gather dims nx ny m f X Y J lambd gamma : reorder m f -> batch_cost dims nx ny (std_batch m (ga f X) (ga f Y) (option_map (ga3 f) J)) lambd gamma = batch_cost dims nx ny (std_batch m X Y J) lambd gamma.
Proof. intros RO. extensionality p. exact (cost_gather m f RO (layers dims p) ny nx X Y J lambd gamma). Qed.
Lemma batch_grad_gather dims nx m f X Y J lambd gamma : reorder m f -> batch_grad dims nx (std_batch m (ga f X) (ga f Y) (option_map (ga3 f) J)) lambd gamma = batch_grad dims nx (std_batch m X Y J) lambd gamma.
Proof. intros RO. extensionality p. unfold batch_grad. f_equal. exact (grad_gather m f RO (layers dims p) nx X Y J lambd gamma). Qed.
