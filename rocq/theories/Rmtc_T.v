(** Properties C21, C22, C25, C70, C71: RMTC elements, predictions, derivatives. *)
From Coq Require Import Reals ZArith Arith Bool List Lia Lra.
From Coquelicot Require Import Coquelicot.
From Verif Require Import RSum Index_M Index_P Rmtb_M Rmtc_M Rmtc_S Rmtc_P Rmtc_P2 Rmtc_P3 Rmtc_P4 Rmtc_P5.
Import ListNotations.
Open Scope list_scope.
Open Scope R_scope.

(** C21. Column of the unique-dof matrix for element [el] and local dof [tl] (both per dimension):
    in range; equal for two element corners exactly when they are the same grid vertex with the same
    derivative flags; every vertex and every flag combination is hit. *)
Theorem C21_columns_in_range : forall nelems el tl, Forall2 lt el nelems -> length tl = length nelems ->
  (uniq_col_l nelems el tl < 2 ^ length nelems * fold_right Nat.mul 1 (map S nelems))%nat.
Proof. exact uniq_range. Qed.
Print Assumptions C21_columns_in_range.
Theorem C21_shared_vertices : forall nelems el tl el' tl', Forall2 lt el nelems -> Forall2 lt el' nelems ->
  Forall2 (fun t _ => (t < 4)%nat) tl nelems -> Forall2 (fun t _ => (t < 4)%nat) tl' nelems ->
  (uniq_col_l nelems el tl = uniq_col_l nelems el' tl' <->
   forall ix, (ix < length nelems)%nat ->
     (nth ix tl 0 / 2 = nth ix tl' 0 / 2 /\ nth ix el 0 + nth ix tl 0 mod 2 = nth ix el' 0 + nth ix tl' 0 mod 2)%nat).
Proof. exact shared_vertices. Qed.
Print Assumptions C21_shared_vertices.
Theorem C21_every_dof_used : forall nelems, (forall k, (k < length nelems)%nat -> (0 < nth k nelems 0)%nat) ->
  forall c, (c < 2 ^ length nelems * fold_right Nat.mul 1 (map S nelems))%nat ->
  exists ielem iterm, (ielem < fold_right Nat.mul 1 nelems)%nat /\ (iterm < 4 ^ length nelems)%nat /\ uniq_col nelems ielem iterm = c.
Proof. exact every_dof. Qed.
Print Assumptions C21_every_dof_used.
Example C21_nonvacuous : uniq_col_l [2%nat; 2%nat] [0%nat; 1%nat] [3%nat; 0%nat] = uniq_col_l [2%nat; 2%nat] [1%nat; 0%nat] [2%nat; 1%nat].
Proof. reflexivity. Qed.

(** C22. The element index is in range, the local coordinate in [-1, 1], and together they give back
    the coordinate clamped to the domain. *)
Theorem C22_element_search : forall a b num x, a < b -> (0 < num)%nat ->
  let e := fst (find_interval a b num x) in let s := snd (find_interval a b num x) in
  (0 <= e < Z.of_nat num)%Z /\ -1 <= s <= 1 /\
  a + (b - a) * (IZR e + (1 + s) / 2) / INR num = Rmin b (Rmax a x).
Proof. exact element_search. Qed.
Print Assumptions C22_element_search.
Example C22_nonvacuous : find_interval 0 2 4 (3 / 4) = (1%Z, 0).
Proof. exact nonvac22. Qed.

(** C70. With the inverse of the nodal matrix, the prediction is the tensor-product cubic Hermite
    interpolant of the degrees of freedom of the element containing the (clamped) point ... *)
Theorem C70_value_is_hermite_interpolant : forall nelems lo up inv dof,
  (forall k, (k < length nelems)%nat -> lo k < up k) -> (forall k, (k < length nelems)%nat -> (0 < nth k nelems 0)%nat) ->
  is_inverse (nterm nelems) (coeff2nodal nelems) inv -> forall x,
  rmtc_value nelems lo up false inv dof x =
  tensor_herm (length nelems) 0 (fun ix => snd (find_interval (lo ix) (up ix) (nth ix nelems 0%nat) (x ix)))
    (fun ls => dof (uniq_col_l nelems (map (fun ix => Z.to_nat (fst (find_interval (lo ix) (up ix) (nth ix nelems 0%nat) (x ix)))) (seq 0 (length nelems))) ls)).
Proof. exact (fun nelems lo up inv dof Hb He Hi => value_tensor nelems lo up inv dof Hb He (inverse_left nelems inv Hi)). Qed.
Print Assumptions C70_value_is_hermite_interpolant.
(** ... so at a grid vertex it is the value degree of freedom of that vertex. *)
Theorem C70_interpolates_nodal_values : forall nelems lo up inv dof,
  (forall k, (k < length nelems)%nat -> lo k < up k) -> (forall k, (k < length nelems)%nat -> (0 < nth k nelems 0)%nat) ->
  is_inverse (nterm nelems) (coeff2nodal nelems) inv ->
  forall vs x, Forall2 (fun v n => (v <= n)%nat) vs nelems ->
  (forall k, (k < length nelems)%nat -> x k = lo k + (up k - lo k) * (INR (nth k vs 0%nat) / INR (nth k nelems 0%nat))) ->
  rmtc_value nelems lo up false inv dof x = dof (contract_index (map S nelems) vs).
Proof. exact (fun nelems lo up inv dof Hb He Hi => nodal nelems lo up inv dof Hb He (inverse_left nelems inv Hi)). Qed.
Print Assumptions C70_interpolates_nodal_values.
(** the nodal matrix is invertible in every dimension (the call to numpy.linalg.inv has an answer) *)
Theorem C70_nodal_matrix_invertible : forall nelems, exists inv, is_inverse (nterm nelems) (coeff2nodal nelems) inv.
Proof. exact (fun nelems => ex_intro _ _ (inverse_exists nelems)). Qed.
Print Assumptions C70_nodal_matrix_invertible.
Theorem C70_columns_in_range : forall nelems lo up,
  (forall k, (k < length nelems)%nat -> lo k < up k) -> (forall k, (k < length nelems)%nat -> (0 < nth k nelems 0)%nat) ->
  forall ix1 ix2 x t, (t < nterm nelems)%nat -> (0 <= rmtc_col nelems lo up ix1 ix2 x t < Z.of_nat (nelem nelems * nterm nelems))%Z.
Proof. exact col_range. Qed.
Print Assumptions C70_columns_in_range.

(** C25 (RMTC). *)
Theorem C25_rmtc_inside : forall nelems lo up inv dof x, (forall k, (k < length nelems)%nat -> lo k <= x k <= up k) ->
  rmtc_value nelems lo up true inv dof x = rmtc_value nelems lo up false inv dof x.
Proof. exact value_inside. Qed.
Print Assumptions C25_rmtc_inside.
Theorem C25_rmtc_expansion : forall nelems lo up inv dof,
  (forall k, (k < length nelems)%nat -> lo k < up k) -> (forall k, (k < length nelems)%nat -> (0 < nth k nelems 0)%nat) ->
  is_inverse (nterm nelems) (coeff2nodal nelems) inv -> forall x,
  let b := fun k => nearest (lo k) (up k) (x k) in
  rmtc_value nelems lo up true inv dof x =
  rmtc_value nelems lo up false inv dof b + rsum (length nelems) (fun k => rmtc_derivative nelems lo up false inv dof k b * (x k - b k)).
Proof. exact (fun nelems lo up inv dof Hb He Hi => value_expansion nelems lo up inv dof Hb He (inverse_left nelems inv Hi)). Qed.
Print Assumptions C25_rmtc_expansion.

(** C71. The derivative prediction is the partial derivative of the prediction at every interior
    point, element boundaries included (so the model is differentiable there), and outside the
    domain when extrapolation is on. *)
Theorem C71_derivative_is_partial_derivative : forall nelems lo up inv dof,
  (forall k, (k < length nelems)%nat -> lo k < up k) -> (forall k, (k < length nelems)%nat -> (0 < nth k nelems 0)%nat) ->
  is_inverse (nterm nelems) (coeff2nodal nelems) inv ->
  forall ext kx x, (kx < length nelems)%nat ->
  lo kx < x kx < up kx \/ (ext = true /\ (x kx < lo kx \/ up kx < x kx)) ->
  is_partial (rmtc_value nelems lo up ext inv dof) x kx (rmtc_derivative nelems lo up ext inv dof kx x).
Proof. exact (fun nelems lo up inv dof Hb He Hi => derivative_correct nelems lo up inv dof Hb He (inverse_left nelems inv Hi)). Qed.
Print Assumptions C71_derivative_is_partial_derivative.
Example C71_nonvacuous : exists inv, is_inverse (nterm [2%nat; 3%nat]) (coeff2nodal [2%nat; 3%nat]) inv /\
  (fun _ : nat => 0) 0%nat < 1 / 2 < (fun _ : nat => 1) 0%nat.
Proof. exact (ex_intro _ _ (conj (inverse_exists _) half_in)). Qed.
