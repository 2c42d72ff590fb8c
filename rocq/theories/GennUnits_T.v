(** Property C112, GENN part: inputs and outputs (and derivatives) in other units. *)
From Coq Require Import Reals ZArith Arith Bool List Lia Lra.
From Verif Require Import RSum Genn_M Genn_S GennOpt_M GennTrain_M GennUnits_S Units_P6.
Import ListNotations.
Open Scope list_scope.
Open Scope R_scope.

(** With the same options and random generator, train() on the converted data does exactly what it does on
    the original data - the same weights, the same history, the same generator, or the same failure - and
    only the stored scale factors are converted. *)
Theorem C112_genn_training : forall A B a b : vec, (forall i, 0 < A i) -> (forall k, 0 < a k) ->
  forall (rng : Type) (seeded : Z -> rng) (permutation : rng -> nat -> list nat * rng) (initial : rng -> list nat -> params * rng) (entropy : nat -> rng) fuel o (tp : points) g x y,
  (forall j x d, tp (S j) = Some (x, d) -> exists y, tp 0%nat = Some (x, y)) -> tp 0%nat = Some (x, y) -> (0 < t_rows x)%nat ->
  (forall i, GennTrain_M.std (t_rows x) (fun e => t_val x e i) = 0 -> A i = 1 /\ B i = 0) ->
  (forall k, GennTrain_M.std (t_rows x) (fun e => t_val y e k) = 0 -> a k = 1 /\ b k = 0) ->
  genn_train rng seeded permutation initial entropy fuel o (conv_points A B a b tp) g =
  match genn_train rng seeded permutation initial entropy fuel o tp g with
  | Ret (n, h, g') => Ret (conv_network A B a b n, h, g')
  | Raise => Raise
  | Loop => Loop
  end.
Proof. exact genn_units. Qed.
Print Assumptions C112_genn_training.
(** The converted network predicts the converted values ... *)
Theorem C112_genn_values : forall A B a b : vec, (forall i, 0 < A i) ->
  forall n nx ny m (x D D' : arr), (forall i, sigma_x (net_scaling n) i = 0 -> A i = 1 /\ B i = 0) ->
  network_values n nx ny m x = Some D -> network_values (conv_network A B a b n) nx ny m (fun e i => A i * x e i + B i) = Some D' ->
  forall e k, (e < m)%nat -> (k < ny)%nat -> D' e k = a k * D e k + b k.
Proof. exact values_units. Qed.
Print Assumptions C112_genn_values.
(** ... and (with one output, at several points) the converted derivatives. *)
Theorem C112_genn_derivatives : forall A B a b : vec, (forall i, 0 < A i) ->
  forall n nx m (x D D' : arr) kx, m <> 1%nat -> (kx < nx)%nat -> (forall i, sigma_x (net_scaling n) i = 0 -> A i = 1 /\ B i = 0) ->
  network_derivatives n nx 1 m x kx = Some D -> network_derivatives (conv_network A B a b n) nx 1 m (fun e i => A i * x e i + B i) kx = Some D' ->
  forall e, (e < m)%nat -> D' e 0%nat = a 0%nat * D e 0%nat / A kx.
Proof. exact derivs_units. Qed.
Print Assumptions C112_genn_derivatives.

(** the hypotheses are met: two training points 0 and 1 with values 1 and 3 *)
Example C112_genn_nonvacuous : let x := {| t_rows := 2; t_cols := 1; t_val := fun e _ => INR e |} in let y := {| t_rows := 2; t_cols := 1; t_val := fun e _ => 1 + 2 * INR e |} in
  GennTrain_M.std (t_rows x) (fun e => t_val x e 0%nat) <> 0 /\ GennTrain_M.std (t_rows x) (fun e => t_val y e 0%nat) <> 0.
Proof.
  cbv zeta. unfold GennTrain_M.std, GennTrain_M.mean. cbn [t_rows t_val rsum INR]. split; intros E; apply sqrt_eq_0 in E; lra.
Qed.
