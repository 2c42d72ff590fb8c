(** C118: what the training of GENN depends on when every batch holds all the examples. *)
From Coq Require Import Reals ZArith Arith Bool List Permutation Lia Lra.
From Verif Require Import RSum Genn_M GennOpt_M GennTrain_M GennOrd_S GennOrd_P GennOrd_P2 GennOrd_P3.
From Verif Require Het_S.
Import ListNotations.
Open Scope list_scope.
Open Scope R_scope.
(** full batches: listing the training points in another order gives the same network (parameters and scale factors), the same history of costs, and the same failures,
    whatever the seeds, the generators and their shuffles; only the initial weights must be the same *)
Theorem C118_order_irrelevant : forall (rng rng' : Type) (seeded : Z -> rng) (seeded' : Z -> rng') permutation permutation' initial initial' (entropy : nat -> rng) (entropy' : nat -> rng') fuel o tp x y f seed g g',
  (forall g n, Permutation (fst (permutation g n)) (seq 0 n)) -> (forall g n, Permutation (fst (permutation' g n)) (seq 0 n)) ->
  tp 0%nat = Some (x, y) -> Het_S.reorder (t_rows x) f -> full_batch (t_rows x) (o_batch o) -> (forall dims, fst (initial' g' dims) = fst (initial g dims)) ->
  outcome (genn_train rng' seeded' permutation' initial' entropy' fuel (with_seed o seed) (rearranged f tp) g') = outcome (genn_train rng seeded permutation initial entropy fuel o tp g).
Proof. intros rng rng' seeded seeded' permutation permutation' initial initial' entropy entropy' fuel o tp x y f seed g g' P P' E RO F HI. exact (main rng rng' seeded seeded' permutation permutation' initial initial' entropy entropy' P P' fuel o tp x y f seed g g' E RO F HI). Qed.
Print Assumptions C118_order_irrelevant.
(** full batches: the seed option has no effect at all on the network: the initial weights are drawn before the generator is seeded *)
Theorem C118_seed_has_no_effect : forall rng seeded permutation initial entropy fuel o tp x y seed g, (forall g n, Permutation (fst (permutation g n)) (seq 0 n)) ->
  tp 0%nat = Some (x, y) -> full_batch (t_rows x) (o_batch o) ->
  outcome (genn_train rng seeded permutation initial entropy fuel (with_seed o seed) tp g) = outcome (genn_train rng seeded permutation initial entropy fuel o tp g).
Proof.
  intros rng seeded permutation initial entropy fuel o tp x y seed g P E F. rewrite <- (rearranged_id tp) at 1.
  apply (main rng rng seeded seeded permutation permutation initial initial entropy entropy P P fuel o tp x y (fun i => i) seed g g E); [split; auto|exact F|reflexivity].
Qed.
Print Assumptions C118_seed_has_no_effect.
(** with smaller batches the order does matter, even without any shuffling: four examples and one step on each batch of two give slopes of opposite signs *)
Theorem C118_minibatch_order_refuted : exists n h n' h', wtrain wtp = Ret (n, h, tt) /\ wtrain (rearranged halves wtp) = Ret (n', h', tt) /\ Het_S.reorder 4 halves /\ net_params n (W 1 0 0) < 0 < net_params n' (W 1 0 0).
Proof. destruct minibatch_order as (n & h & n' & h' & A & B & C). exists n, h, n', h'. split; [exact A|]. split; [exact B|]. split; [exact halves_reorder|exact C]. Qed.
Print Assumptions C118_minibatch_order_refuted.
Example C118_nonvacuous : wtp 0%nat = Some (wx, wy) /\ Het_S.reorder (t_rows wx) halves /\ halves 0 = 2%nat /\ full_batch (t_rows wx) 0 /\ full_batch (t_rows wx) 64 /\ exists X Y J, smt_to_genn wtp = Ret (4%nat, 1%nat, 1%nat, X, Y, J).
Proof. split; [reflexivity|]. split; [exact halves_reorder|]. split; [reflexivity|]. split; [left; reflexivity|]. split; [right; cbn; lia|]. destruct wtp_ok as (X & Y & J & E & _). exists X, Y, J. exact E. Qed.
Print Assumptions C118_nonvacuous.
