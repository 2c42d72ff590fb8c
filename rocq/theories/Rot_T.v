(** C124: Change of coordinates of the inputs. *)
From Coq Require Import Reals Arith Bool List Lia Lra.
From Coquelicot Require Import Coquelicot.
From Verif Require Import RSum Mat Idw_M Rbf_M Rbf_S Rbf_P Poly_M Poly_P Psd2 Rot_M Rot_P Rot_P2.
Open Scope R_scope.

(** IDW: after a rotation, reflection or shift of the inputs the prediction at the moved point is the same, the old derivatives
    are the old axes' combinations of the new ones, and the derivatives by the training outputs are the same. *)
Theorem C124_idw : forall nx nt p (xt : nat -> vec) (Q : mat) (t : vec), orthonormal nx Q -> forall yt x,
  let xt' := fun i => place nx Q t (xt i) in let x' := place nx Q t x in
  idw_value nx nt p xt' yt x' = idw_value nx nt p xt yt x /\
  (forall j, (j < nx)%nat -> rsum nx (fun k => Q k j * idw_derivative nx nt p xt' yt k x') = idw_derivative nx nt p xt yt j x) /\
  forall i, idw_output_derivative nx nt p xt' x' i = idw_output_derivative nx nt p xt x i.
Proof. exact idw_rot. Qed.
Print Assumptions C124_idw.
(** RBF with the same length scale for all inputs *)
Theorem C124_rbf : forall nx nt deg c (xt : nat -> vec) reg (Q : mat) (t : vec), orthonormal nx Q -> c <> 0 -> 0 <= reg -> (reg = 0 -> distinct nx nt xt) -> trend_full_rank nx nt deg xt ->
  forall yt sol sol', let d0 := fun _ : nat => c in let xt' := fun i => place nx Q t (xt i) in
  rbf_solves nx nt deg d0 xt reg yt sol -> rbf_solves nx nt deg d0 xt' reg yt sol' -> forall x,
  rbf_value nx nt deg d0 xt' sol' (place nx Q t x) = rbf_value nx nt deg d0 xt sol x /\
  forall j, (j < nx)%nat -> rsum nx (fun k => Q k j * rbf_derivative nx nt deg d0 xt' sol' k (place nx Q t x)) = rbf_derivative nx nt deg d0 xt sol j x.
Proof. exact rbf_rot. Qed.
Print Assumptions C124_rbf.
(** with different length scales it is not so: two inputs, one training point, a quarter turn *)
Theorem C124_rbf_scales_refuted : exists d0 sol, (forall k, (k < 2)%nat -> d0 k <> 0) /\ rbf_solves 2 1 NoPoly d0 (fun _ _ => 0) 0 (fun _ => 1) sol /\
  rbf_solves 2 1 NoPoly d0 (fun _ => place 2 quarter (fun _ => 0) (fun _ => 0)) 0 (fun _ => 1) sol /\
  rbf_value 2 1 NoPoly d0 (fun _ => place 2 quarter (fun _ => 0) (fun _ => 0)) sol (place 2 quarter (fun _ => 0) (fun k => if Nat.eqb k 0 then 1 else 0)) <>
  rbf_value 2 1 NoPoly d0 (fun _ _ => 0) sol (fun k => if Nat.eqb k 0 then 1 else 0).
Proof. exact rbf_scales_wrong. Qed.
Print Assumptions C124_rbf_scales_refuted.
(** LS: any change of coordinates that can be undone; always the same fit at the training points *)
Theorem C124_ls_training_points : forall (lstsq : nat -> nat -> mat -> vec -> vec) nx nt (xt : nat -> vec) (yt t : vec) (P Q : mat),
  (forall X y k, (k < nx)%nat -> mv nt (tr X) (fun e => mv nx X (lstsq nt nx X y) e - y e) k = 0) -> (0 < nt)%nat -> invertible_by nx P Q ->
  forall e, (e < nt)%nat -> ls_value nx (ls_fit lstsq nx nt (fun e => place nx Q t (xt e)) yt) (place nx Q t (xt e)) = ls_value nx (ls_fit lstsq nx nt xt yt) (xt e).
Proof. exact ls_rot_points. Qed.
Print Assumptions C124_ls_training_points.
(** and, when the training points determine a linear function, the same prediction everywhere *)
Theorem C124_ls : forall (lstsq : nat -> nat -> mat -> vec -> vec) nx nt (xt : nat -> vec) (yt t : vec) (P Q : mat),
  (forall X y k, (k < nx)%nat -> mv nt (tr X) (fun e => mv nx X (lstsq nt nx X y) e - y e) k = 0) -> (0 < nt)%nat -> invertible_by nx P Q ->
  (forall a' (b' : vec), (forall i, (i < nt)%nat -> a' + rsum nx (fun k => b' k * xt i k) = 0) -> a' = 0 /\ forall k, (k < nx)%nat -> b' k = 0) ->
  forall x, let m := ls_fit lstsq nx nt xt yt in let m' := ls_fit lstsq nx nt (fun e => place nx Q t (xt e)) yt in
  ls_value nx m' (place nx Q t x) = ls_value nx m x /\
  forall j, (j < nx)%nat -> rsum nx (fun k => Q k j * ls_derivative m' k (place nx Q t x)) = ls_derivative m j x.
Proof. exact ls_rot. Qed.
Print Assumptions C124_ls.
(** QP *)
Theorem C124_qp : forall inv dim nt (xt : nat -> vec) (yt t : vec) (P Q : mat), invertible_by dim P Q ->
  let xt' := fun e => place dim Q t (xt e) in
  let gram := fun x : nat -> vec => mm nt (tr (fun e a => qp_row dim (x e) a)) (fun e a => qp_row dim (x e) a) in
  (forall i j, (i < qp_napp dim)%nat -> (j < qp_napp dim)%nat -> mm (qp_napp dim) (gram xt) (inv (gram xt)) i j = idm i j) ->
  (forall i j, (i < qp_napp dim)%nat -> (j < qp_napp dim)%nat -> mm (qp_napp dim) (inv (gram xt')) (gram xt') i j = idm i j) ->
  forall coef coef', qp_train inv dim nt xt yt = Some coef -> qp_train inv dim nt xt' yt = Some coef' ->
  forall x, qp_value dim coef' (place dim Q t x) = qp_value dim coef x /\
    forall j, (j < dim)%nat -> rsum dim (fun k => Q k j * qp_derivative dim coef' k (place dim Q t x)) = qp_derivative dim coef j x.
Proof. exact qp_rot. Qed.
Print Assumptions C124_qp.
(** The derivatives QP predicts give the slope of its predictions in every direction, not only along the axes. *)
Theorem C124_qp_directions : forall dim c x v, is_derive (fun s => qp_value dim c (fun k => x k + s * v k)) 0 (rsum dim (fun k => v k * qp_derivative dim c k x)).
Proof. exact qp_direction. Qed.
Print Assumptions C124_qp_directions.

(** the hypotheses are met: a turn of the plane by any angle, and a shear with its inverse *)
Definition turn (a : R) : mat := fun i j => match i, j with 0%nat, 0%nat => cos a | 0%nat, 1%nat => - sin a | 1%nat, 0%nat => sin a | _, _ => cos a end.
Definition shear (b : R) : mat := fun i j => match i, j with 0%nat, 1%nat => b | 1%nat, 0%nat => 0 | _, _ => 1 end.
Example C124_nonvacuous : (forall a, orthonormal 2 (turn a)) /\ (forall b, invertible_by 2 (shear (- b)) (shear b)) /\
  place 2 (turn (PI / 2)) (fun _ => 1) (fun k => match k with O => 3 | _ => 0 end) 1%nat = 4.
Proof.
  split; [|split].
  - intros a i j Hi Hj. pose proof (sin2_cos2 a) as E. unfold Rsqr in E. destruct i as [|[|i]], j as [|[|j]]; try lia; cbn; nra.
  - intros b i j Hi Hj. destruct i as [|[|i]], j as [|[|j]]; try lia; cbn; ring.
  - unfold place, turn. cbn. rewrite sin_PI2, cos_PI2. ring.
Qed.
Example C124_nonvacuous_rbf : forall (xt : nat -> vec), trend_full_rank 2 1 NoPoly xt /\ distinct 2 1 xt /\ exists sol, rbf_solves 2 1 NoPoly (fun _ => 2) (fun _ _ => 0) 0 (fun _ => 1) sol.
Proof.
  intros xt. split; [|split].
  - intros a b. exact I.
  - intros i j Hi Hj N E. lia.
  - exists (fun _ => 1). intros i Hi. assert (i = 0%nat) by (cbn in Hi; lia). subst i. unfold mv, rbf_rhs, num_dof, rbf_mtx, rbf_jac, rbf_radial. cbn.
    match goal with |- context [exp ?e] => replace e with 0 by field end. rewrite exp_0. ring.
Qed.
