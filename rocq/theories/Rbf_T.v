(** Properties C28, C29, C76 (RBF part). *)
From Coq Require Import Reals Arith Bool List Lia Lra.
From Verif Require Import RSum Mat Psd2 Rbf_M Rbf_S Rbf_P.
Open Scope R_scope.

(** C28. Whatever solution the linear solver returns, the prediction at training point i misses the
    training output by exactly reg times the i-th coefficient (so nothing when reg = 0) ... *)
Theorem C28_interpolates : forall nx nt deg d0 xt reg yt sol, rbf_solves nx nt deg d0 xt reg yt sol ->
  forall i, (i < nt)%nat -> rbf_value nx nt deg d0 xt sol (xt i) = yt i - reg * sol i.
Proof. exact interpolates. Qed.
Print Assumptions C28_interpolates.
(** ... the radial coefficients are orthogonal to the trend ... *)
Theorem C28_side_conditions : forall nx nt deg d0 xt reg yt sol, rbf_solves nx nt deg d0 xt reg yt sol ->
  (deg <> NoPoly -> rsum nt sol = 0) /\ (deg = Linear -> forall k, (k < nx)%nat -> rsum nt (fun i => sol i * xt i k) = 0).
Proof.
  intros nx nt deg d0 xt reg yt sol S. split; [intros D; exact (side_const nx nt deg d0 xt reg yt sol D S)|intros D k Hk; exact (side_linear nx nt deg d0 xt reg yt sol k D Hk S)].
Qed.
Print Assumptions C28_side_conditions.
(** ... the solution is unique: with reg > 0 for any points, with reg = 0 for distinct points ... *)
Theorem C28_unique_model : forall nx nt deg d0 xt reg yt s1 s2, (forall k, (k < nx)%nat -> d0 k <> 0) -> 0 <= reg ->
  (reg = 0 -> distinct nx nt xt) -> trend_full_rank nx nt deg xt ->
  rbf_solves nx nt deg d0 xt reg yt s1 -> rbf_solves nx nt deg d0 xt reg yt s2 -> forall i, (i < num_dof nx nt deg)%nat -> s1 i = s2 i.
Proof. exact unique. Qed.
Print Assumptions C28_unique_model.
(** ... and data generated by the trend are reproduced everywhere, for every reg. *)
Theorem C28_reproduces_affine_data : forall nx nt d0 xt reg a b yt sol, (forall k, (k < nx)%nat -> d0 k <> 0) -> 0 <= reg ->
  (reg = 0 -> distinct nx nt xt) -> trend_full_rank nx nt Linear xt ->
  (forall i, (i < nt)%nat -> yt i = a + rsum nx (fun k => b k * xt i k)) -> rbf_solves nx nt Linear d0 xt reg yt sol ->
  forall x, rbf_value nx nt Linear d0 xt sol x = a + rsum nx (fun k => b k * x k).
Proof. exact (fun nx nt d0 xt reg a b yt sol Hd Hr D F Y S => reproduces nx nt Linear d0 xt reg a b yt sol eq_refl Hd Hr D F Y S). Qed.
Print Assumptions C28_reproduces_affine_data.
Theorem C28_reproduces_constant_data : forall nx nt deg d0 xt reg a yt sol, deg <> NoPoly -> (forall k, (k < nx)%nat -> d0 k <> 0) -> 0 <= reg ->
  (reg = 0 -> distinct nx nt xt) -> trend_full_rank nx nt deg xt ->
  (forall i, (i < nt)%nat -> yt i = a) -> rbf_solves nx nt deg d0 xt reg yt sol -> forall x, rbf_value nx nt deg d0 xt sol x = a.
Proof. exact reproduces_const. Qed.
Print Assumptions C28_reproduces_constant_data.
Example C28_nonvacuous : let xt := fun i (_ : nat) => INR i in let yt := fun i => 3 + 2 * INR i in
  trend_full_rank 1 2 Linear xt /\ distinct 1 2 xt /\ exists sol, rbf_solves 1 2 Linear (fun _ => 1) xt (1 / 10) yt sol /\ sol 3%nat = 2.
Proof.
  cbv zeta. split; [|split].
  - intros a b H. pose proof (H 0%nat ltac:(lia)) as H0. pose proof (H 1%nat ltac:(lia)) as H1. cbn in H0, H1. split; [lra|]. intros k Hk. assert (k = 0%nat) by lia. subst k. lra.
  - intros i j Hi Hj N E. specialize (E 0%nat ltac:(lia)). apply INR_eq in E. contradiction.
  - exists (fun i => if Nat.eqb i 2 then 3 else if Nat.eqb i 3 then 2 else 0). split; [|reflexivity].
    intros i Hi. unfold num_dof in Hi. cbn in Hi. unfold mv, num_dof. cbn [num_poly Nat.add rsum].
    destruct i as [|[|[|[|i]]]]; [| | | |lia]; unfold rbf_mtx, rbf_rhs, rbf_jac; cbn; ring.
Qed.

(** C29. *)
Theorem C29_derivative_is_partial_derivative : forall nx nt deg d0 xt sol x kx, (kx < nx)%nat -> (forall k, (k < nx)%nat -> d0 k <> 0) ->
  is_partial (rbf_value nx nt deg d0 xt sol) x kx (rbf_derivative nx nt deg d0 xt sol kx x).
Proof. exact derivative. Qed.
Print Assumptions C29_derivative_is_partial_derivative.
Example C29_nonvacuous : rbf_derivative 1 1 Linear (fun _ => 1) (fun _ _ => 0) (fun _ => 1) 0 (fun _ => 1) = 1 - 2 * exp (-1).
Proof.
  unfold rbf_derivative, dot, num_dof. cbn [num_poly Nat.add rsum]. unfold rbf_djac. cbn.
  replace (- (0 + (1 - 0) / 1 * ((1 - 0) / 1 * 1))) with (-1) by field. field.
Qed.

(** C76 (RBF). Retraining with other outputs moves every prediction by the predicted output derivatives ... *)
Theorem C76_rbf_output_derivatives : forall nx nt deg d0 xt reg (inv : mat -> mat) solver yt yt' x,
  let dof := num_dof nx nt deg in let mtx := rbf_mtx nx nt deg d0 xt reg in
  (forall b i, (i < dof)%nat -> mv dof mtx (solver mtx b) i = b i) ->
  (forall i j, (i < dof)%nat -> (j < dof)%nat -> mm dof (inv mtx) mtx i j = idm i j) ->
  exists D, (forall i, rbf_output_derivative nx nt deg d0 xt inv (rbf_train nx nt deg d0 xt reg None solver yt) x i = Some (D i)) /\
  rbf_value nx nt deg d0 xt (st_sol (rbf_train nx nt deg d0 xt reg None solver yt')) x
  - rbf_value nx nt deg d0 xt (st_sol (rbf_train nx nt deg d0 xt reg None solver yt)) x = rsum nt (fun i => D i * (yt' i - yt i)).
Proof. exact output_exact. Qed.
Print Assumptions C76_rbf_output_derivatives.
(** ... but a model restored from the cache has no matrix and the call fails. *)
Theorem C76_rbf_cached_refuted : forall nx nt deg d0 xt reg inv solver yt sol x i,
  rbf_output_derivative nx nt deg d0 xt inv (rbf_train nx nt deg d0 xt reg (Some sol) solver yt) x i = None.
Proof. reflexivity. Qed.
Print Assumptions C76_rbf_cached_refuted.
Example C76_nonvacuous : let mtx := rbf_mtx 1 1 Constant (fun _ => 1) (fun _ _ => 0) 1 in
  forall i j, (i < 2)%nat -> (j < 2)%nat -> mm 2 (fun i j => if Nat.eqb (i + j) 0 then 0 else if Nat.eqb (i + j) 2 then -2 else 1) mtx i j = idm i j.
Proof.
  cbv zeta. intros i j Hi Hj. unfold mm, idm. destruct i as [|[|i]]; [| |lia]; (destruct j as [|[|j]]; [| |lia]); cbn; unfold rbf_mtx, rbf_jac, rbf_radial; cbn;
  try replace (- (0 + (0 - 0) / 1 * ((0 - 0) / 1 * 1))) with 0 by field; try rewrite exp_0; ring.
Qed.
