(** Property C109: what RMTS training minimises. *)
From Coq Require Import Reals ZArith Arith Bool List Lia Lra.
From Coquelicot Require Import Coquelicot.
From Verif Require Import RSum Mat Index_M Rmtb_M Rmtb_P2 Rmtc_M RmtsTrain_M Energy_P3 Rmtc_P2 Rmtc_P4.
Import ListNotations.
Open Scope list_scope.
Open Scope R_scope.

(** C109, B-splines.  Training points come in groups (kind: 0 values, k + 1 derivatives in x_k; number; points; weight).  The objective
    minimised by training is half of: regularization_weight times the sum of squares of the coefficients, energy_weight times the mean
    over the quadrature points of sum_k smoothness_k times the squared second partial derivative of the model in x_k (only if min_energy), and
    the weighted p-th powers of the errors of the model, or of its derivative, at the training points.  The quadrature points are the
    mid-points of the half elements, 2 m per dimension for m elements. *)
Theorem C109_rmtb_objective : forall orders ncps lo up, Forall2 (fun o n => (1 <= o <= n)%nat) orders ncps ->
  (forall k, (k < length orders)%nat -> lo k < up k) ->
  let nx := length orders in let nelems := map (fun on => (snd on - fst on + 1)%nat) (combine orders ncps) in
  (forall k, (k < nx)%nat -> INR (nth k nelems 0%nat) <= 10 ^ 14) ->
  forall reg_w energy_w min_energy smoothness p sol data yt,
  let n := prodl ncps in let nq := prodl (map (fun m => 2 * m)%nat nelems) in let w := fun k => up k - lo k in
  let fit := fun kx x => match kx with
    | O => rmtb_value orders ncps lo up false (fun z => sol (Z.to_nat z)) x
    | S k => rmtb_derivative orders ncps lo up false (fun z => sol (Z.to_nat z)) k x end in
  let xq := quad_point lo up (map (fun m => 2 * m)%nat nelems) in
  exists d2 : nat -> nat -> R,
    (forall k q, (k < nx)%nat -> (q < nq)%nat -> is_derive_n (fun z => fit 0%nat (upd (xq q) k z)) 2 (xq q k) (d2 k q)) /\
    opt_func n (full_hess reg_w energy_w min_energy (energy_hess nx nq (rmtb_energy_row orders ncps nelems lo up) w smoothness (vol_fraction nelems w)))
      (map (fun '(kx, nt, xt, c) => mkB kx nt (rmtb_jac orders ncps lo up kx xt) c) data) p yt sol =
    1 / 2 * reg_w * rsum n (fun j => sol j ^ 2)
    + (if min_energy then 1 / 2 * energy_w * (rsum nq (fun q => rsum nx (fun k => smoothness k * d2 k q ^ 2)) / INR nq) else 0)
    + lsum (fun '(kx, nt, xt, c) => 1 / 2 * c * rsum nt (fun t => (fit kx (xt t) - yt kx t) ^ p)) data.
Proof. exact (fun orders ncps lo up Hd Hb Hs rw ew me sm p sol data yt => rmtb_objective orders ncps lo up Hd Hb Hs rw ew me sm p sol data yt). Qed.
Print Assumptions C109_rmtb_objective.
(** C109, cubic Hermite elements: the same, the regularised vector being the nodal values and derivatives. *)
Theorem C109_rmtc_objective : forall nelems lo up inv, (forall k, (k < length nelems)%nat -> lo k < up k) ->
  (forall k, (k < length nelems)%nat -> (0 < nth k nelems 0)%nat) ->
  (forall i j, (i < nterm nelems)%nat -> (j < nterm nelems)%nat -> rsum (nterm nelems) (fun k => inv i k * coeff2nodal nelems k j) = if Nat.eqb i j then 1 else 0) ->
  forall reg_w energy_w min_energy smoothness p sol data yt, let nx := length nelems in
  let n := (2 ^ nx * nuniq nelems)%nat in let nq := prodl (map (fun m => 2 * m)%nat nelems) in let w := fun k => up k - lo k in
  let fit := fun kx x => match kx with
    | O => rmtc_value nelems lo up false inv sol x
    | S k => rmtc_derivative nelems lo up false inv sol k x end in
  let xq := quad_point lo up (map (fun m => 2 * m)%nat nelems) in
  exists d2 : nat -> nat -> R,
    (forall k q, (k < nx)%nat -> (q < nq)%nat -> is_derive_n (fun z => fit 0%nat (upd (xq q) k z)) 2 (xq q k) (d2 k q)) /\
    opt_func n (full_hess reg_w energy_w min_energy
        (energy_hess nx nq (fun k => mm (nelem nelems * nterm nelems) (rmtc_energy_row nelems lo up k) (dof2coeff_mat nelems inv)) w smoothness (vol_fraction nelems w)))
      (map (fun '(kx, nt, xt, c) => mkB kx nt (rmtc_jac nelems lo up inv kx xt) c) data) p yt sol =
    1 / 2 * reg_w * rsum n (fun j => sol j ^ 2)
    + (if min_energy then 1 / 2 * energy_w * (rsum nq (fun q => rsum nx (fun k => smoothness k * d2 k q ^ 2)) / INR nq) else 0)
    + lsum (fun '(kx, nt, xt, c) => 1 / 2 * c * rsum nt (fun t => (fit kx (xt t) - yt kx t) ^ p)) data.
Proof. exact (fun nelems lo up inv Hb He Hi rw ew me sm p sol data yt => rmtc_objective nelems lo up inv Hb He Hi rw ew me sm p sol data yt). Qed.
Print Assumptions C109_rmtc_objective.
(** Two dimensions, orders 3 and 2, 5 and 4 control points; an inverse for the Hermite case exists *)
Example C109_nonvacuous : Forall2 (fun o n => (1 <= o <= n)%nat) [3; 2]%nat [5; 4]%nat /\
  (forall k, (k < 2)%nat -> INR (nth k [3; 3]%nat 0%nat) <= 10 ^ 14) /\ exists inv, forall i j, (i < nterm [2; 3]%nat)%nat -> (j < nterm [2; 3]%nat)%nat ->
    rsum (nterm [2; 3]%nat) (fun k => inv i k * coeff2nodal [2; 3]%nat k j) = if Nat.eqb i j then 1 else 0.
Proof.
  split; [repeat constructor|]. split.
  - intros k Hk. assert (INR (nth k [3; 3]%nat 0%nat) = 3) by (destruct k as [|[|k]]; [cbn; lra|cbn; lra|lia]). rewrite H. lra.
  - exists (kron [2; 3]%nat). intros i j Hi Hj. apply kron_c2n; assumption.
Qed.
