(** Properties C19, C20, C25, C69: RMTB basis functions, predictions and derivatives. *)
From Coq Require Import Reals ZArith Arith Bool List Lia Lra.
From Coquelicot Require Import Coquelicot.
From Verif Require Import RSum Index_M Index_P Rmtb_M Rmtb_S Rmtb_P Rmtb_P2 Rmtb_P3 Rmtb_P4 Rmtb_P5.
Import ListNotations.
Open Scope list_scope.
Open Scope R_scope.

(** C19. The in-place triangular scheme returns the Cox-de Boor basis values of the knot interval
    that contains the parameter; all other basis functions vanish there. *)
Theorem C19_basis_is_cox_de_boor : forall order ncp t, (1 <= order <= ncp)%nat -> 0 <= t < 1 ->
  let s := fst (compute_basis_0 order ncp t (knots_uniform order ncp)) in
  let b := snd (compute_basis_0 order ncp t (knots_uniform order ncp)) in
  (0 <= s <= Z.of_nat ncp - Z.of_nat order)%Z /\
  (forall j, (j < order)%nat -> b j = bspline (uniform_knots order ncp) (order - 1) (s + Z.of_nat j) t) /\
  (forall n, (n < s \/ s + Z.of_nat order <= n)%Z -> bspline (uniform_knots order ncp) (order - 1) n t = 0).
Proof. exact cox_de_boor. Qed.
Print Assumptions C19_basis_is_cox_de_boor.

(** C19. Non-negative values with sum one: for the computed values, and over all control points. *)
Theorem C19_partition_of_unity : forall order ncp t, (1 <= order <= ncp)%nat -> 0 <= t < 1 ->
  let b := snd (compute_basis_0 order ncp t (knots_uniform order ncp)) in
  (forall j, (j < order)%nat -> 0 <= b j) /\ rsum order b = 1.
Proof. exact unity. Qed.
Print Assumptions C19_partition_of_unity.
Theorem C19_partition_of_unity_all : forall order ncp t, (1 <= order <= ncp)%nat -> 0 <= t < 1 ->
  rsum ncp (fun i => bspline (uniform_knots order ncp) (order - 1) (Z.of_nat i) t) = 1.
Proof. exact unity_all. Qed.
Print Assumptions C19_partition_of_unity_all.

(** C19. First and second derivative bases sum to zero, at every parameter. *)
Theorem C19_derivative_bases_sum_to_zero : forall order ncp t, (1 <= order <= ncp)%nat -> 0 <= t < 1 ->
  rsum order (snd (compute_basis_1 order ncp t (knots_uniform order ncp))) = 0 /\
  rsum order (snd (compute_basis_2 order ncp t (knots_uniform order ncp))) = 0.
Proof. exact deriv_sums. Qed.
Print Assumptions C19_derivative_bases_sum_to_zero.

(** C19. Between knots, compute_basis_1 is the derivative of the basis functions and compute_basis_2
    the derivative of compute_basis_1. *)
Theorem C19_derivative_bases : forall order ncp t, (1 <= order <= ncp)%nat -> 0 <= t < 1 -> (forall i, t <> uniform_knots order ncp i) ->
  let s := fst (compute_basis_1 order ncp t (knots_uniform order ncp)) in
  forall j, (j < order)%nat ->
  is_derive (bspline (uniform_knots order ncp) (order - 1) (s + Z.of_nat j)) t (snd (compute_basis_1 order ncp t (knots_uniform order ncp)) j) /\
  is_derive (fun y => snd (compute_basis_1 order ncp y (knots_uniform order ncp)) j) t (snd (compute_basis_2 order ncp t (knots_uniform order ncp)) j).
Proof. exact basis_1_derive. Qed.
Print Assumptions C19_derivative_bases.

(** C19. Memory safety: only the allocated knots 0 .. order+ncp-1 influence the results. *)
Theorem C19_reads_inside_knot_array : forall order ncp t kn kn', (1 <= order <= ncp)%nat ->
  (0 <= fst (compute_basis_0 order ncp t kn) <= Z.of_nat ncp - Z.of_nat order)%Z ->
  (forall i, (0 <= i < Z.of_nat order + Z.of_nat ncp)%Z -> kn i = kn' i) ->
  compute_basis_0 order ncp t kn = compute_basis_0 order ncp t kn' /\
  compute_basis_1 order ncp t kn = compute_basis_1 order ncp t kn' /\
  compute_basis_2 order ncp t kn = compute_basis_2 order ncp t kn'.
Proof. exact reads. Qed.
Print Assumptions C19_reads_inside_knot_array.

(** C19. At the right end of the knot range itself no interval is found (start index -1), for every
    order >= 2; the Python caller's clamp to [1e-15, 1 - 1e-15] keeps every call away from it. *)
Theorem C19_right_end_refuted : forall order ncp, (2 <= order <= ncp)%nat ->
  fst (compute_basis_0 order ncp 1 (knots_uniform order ncp)) = (-1)%Z.
Proof. exact right_end. Qed.
Theorem C19_clamp_avoids_right_end : forall order ncp lo up x, (1 <= order <= ncp)%nat ->
  (0 <= fst (compute_basis_0 order ncp (to_param lo up x) (knots_uniform order ncp)) <= Z.of_nat ncp - Z.of_nat order)%Z.
Proof. exact clamped. Qed.
Print Assumptions C19_clamp_avoids_right_end.

Example C19_nonvacuous : (1 <= 2 <= 3)%nat /\ 0 <= / 4 < 1 /\ fst (compute_basis_0 2 3 (/ 4) (knots_uniform 2 3)) = 0%Z /\
  snd (compute_basis_0 2 3 (/ 4) (knots_uniform 2 3)) 0%nat = / 2 /\ (forall i, / 4 <> uniform_knots 2 3 i).
Proof. exact nonvac19. Qed.

(** C20/C25. The prediction is the tensor-product spline with the given control values. *)
Theorem C20_value_is_tensor_spline : forall orders ncps lo up coef, Forall2 (fun o n => (1 <= o <= n)%nat) orders ncps ->
  forall x, rmtb_value orders ncps lo up false coef x =
    tensor_spline orders ncps (fun k => to_param (lo k) (up k) (x k)) 0 (fun k => coef (Z.of_nat k)).
Proof. exact value_tensor. Qed.
Print Assumptions C20_value_is_tensor_spline.
(** C20. Equal control values are reproduced everywhere, with zero derivatives. *)
Theorem C20_constants : forall orders ncps lo up c, Forall2 (fun o n => (1 <= o <= n)%nat) orders ncps ->
  (forall ext x, rmtb_value orders ncps lo up ext (fun _ => c) x = c) /\
  ((forall k, (k < length orders)%nat -> lo k < up k) ->
   forall ext kx x, (kx < length orders)%nat -> rmtb_derivative orders ncps lo up ext (fun _ => c) kx x = 0).
Proof.
  exact (fun orders ncps lo up c Hd => conj (fun ext x => const_value orders ncps lo up c Hd ext x)
    (fun Hb ext kx x H => const_derivative orders ncps lo up c Hd ext kx x H Hb)).
Qed.
Print Assumptions C20_constants.
(** C20. Without extrapolation a prediction lies between the smallest and largest control value. *)
Theorem C20_convex_hull : forall orders ncps lo up coef, Forall2 (fun o n => (1 <= o <= n)%nat) orders ncps ->
  forall x a b, (forall k, (0 <= k < Z.of_nat (fold_right Nat.mul 1%nat ncps))%Z -> a <= coef k <= b) ->
  a <= rmtb_value orders ncps lo up false coef x <= b.
Proof. exact value_hull. Qed.
Print Assumptions C20_convex_hull.
(** C20. Every column index addresses an existing control point. *)
Theorem C20_columns_in_range : forall orders ncps lo up, Forall2 (fun o n => (1 <= o <= n)%nat) orders ncps ->
  forall ix1 ix2 x inz, (inz < fold_right Nat.mul 1 orders)%nat ->
  (0 <= raw_col orders ncps lo up ix1 ix2 x inz < Z.of_nat (fold_right Nat.mul 1%nat ncps))%Z.
Proof. exact columns_in_range. Qed.
Print Assumptions C20_columns_in_range.

(** C25 (RMTB). Inside the box extrapolation changes nothing; outside, the prediction is the
    first-order expansion at the closest point of the box. *)
Theorem C25_rmtb_inside : forall orders ncps lo up coef x, (forall k, (k < length orders)%nat -> lo k <= x k <= up k) ->
  rmtb_value orders ncps lo up true coef x = rmtb_value orders ncps lo up false coef x.
Proof. exact value_inside. Qed.
Print Assumptions C25_rmtb_inside.
Theorem C25_rmtb_expansion : forall orders ncps lo up coef, Forall2 (fun o n => (1 <= o <= n)%nat) orders ncps ->
  (forall k, (k < length orders)%nat -> lo k < up k) -> forall x,
  let b := fun k => nearest (lo k) (up k) (x k) in
  rmtb_value orders ncps lo up true coef x =
  rmtb_value orders ncps lo up false coef b + rsum (length orders) (fun k => rmtb_derivative orders ncps lo up false coef k b * (x k - b k)).
Proof. exact value_expansion. Qed.
Print Assumptions C25_rmtb_expansion.

(** C69. The derivative prediction along coordinate kx is the partial derivative of the prediction:
    when that coordinate is strictly inside the box (by more than the clamp 1e-15) and not on a knot,
    with or without extrapolation and wherever the other coordinates are, and also when it is strictly
    outside the box and extrapolation is on. *)
Theorem C69_derivative_is_partial_derivative : forall orders ncps lo up coef, Forall2 (fun o n => (1 <= o <= n)%nat) orders ncps ->
  (forall k, (k < length orders)%nat -> lo k < up k) ->
  forall ext kx x, (kx < length orders)%nat ->
  (let t := (x kx - lo kx) / (up kx - lo kx) in
   / 10 ^ 15 < t < 1 - / 10 ^ 15 /\ forall i, t <> uniform_knots (nth kx orders 0%nat) (nth kx ncps 0%nat) i)
  \/ (ext = true /\ (x kx < lo kx \/ up kx < x kx)) ->
  is_partial (rmtb_value orders ncps lo up ext coef) x kx (rmtb_derivative orders ncps lo up ext coef kx x).
Proof. exact derivative_correct. Qed.
Print Assumptions C69_derivative_is_partial_derivative.
(** C69. Outside the box without extrapolation the prediction is constant along the coordinate,
    but the derivative prediction need not be zero. *)
Theorem C69_clamped_value_is_flat : forall orders ncps lo up coef kx x, Forall2 (fun o n => (1 <= o <= n)%nat) orders ncps ->
  (forall k, (k < length orders)%nat -> lo k < up k) ->
  (kx < length orders)%nat -> (x kx < lo kx \/ up kx < x kx) -> is_partial (rmtb_value orders ncps lo up false coef) x kx 0.
Proof. exact clamped_value. Qed.
Print Assumptions C69_clamped_value_is_flat.
Theorem C69_clamped_derivative_refuted :
  rmtb_derivative [2%nat] [2%nat] (fun _ => 0) (fun _ => 1) false (fun k => IZR k) 0 (fun _ => 2) = 1.
Proof. exact clamped_example. Qed.
Example C69_nonvacuous : Forall2 (fun o n => (1 <= o <= n)%nat) [2%nat; 4%nat] [3%nat; 7%nat] /\
  (forall k, (k < 2)%nat -> (fun _ : nat => 0) k < (fun _ : nat => 1) k) /\
  (let t := (/ 4 - 0) / (1 - 0) in / 10 ^ 15 < t < 1 - / 10 ^ 15 /\ forall i, t <> uniform_knots 2 3 i).
Proof. exact nonvac69. Qed.
