(** Property C18: index maps of the tensor-product grids, quadrature points, nearest domain point. *)
From Coq Require Import Reals ZArith Arith Bool List Lia Lra.
From Verif Require Import RSum Index_M Index_P.
Import ListNotations.
Open Scope list_scope.
Open Scope nat_scope.

(** C18. Flat indexes below the product of the sizes and in-range multi-indexes are in bijection:
    each map lands in the other's domain and the compositions are identities. *)
Theorem C18_bijection : forall ns : list nat,
  let size := fold_right Nat.mul 1 ns in
  (forall k, k < size -> Forall2 lt (expand_index ns k) ns /\ contract_index ns (expand_index ns k) = k) /\
  (forall is, Forall2 lt is ns -> contract_index ns is < size /\ expand_index ns (contract_index ns is) = is).
Proof.
  exact (fun ns => conj (fun k H => conj (expand_bounds ns k H) (contract_expand ns k H))
                        (fun is H => conj (contract_lt ns is H) (expand_contract ns is H))).
Qed.
Print Assumptions C18_bijection.
(** C18. Contraction is injective on in-range multi-indexes. *)
Theorem C18_contract_injective : forall ns is js, Forall2 lt is ns -> Forall2 lt js ns ->
  contract_index ns is = contract_index ns js -> is = js.
Proof. exact contract_inj. Qed.
Print Assumptions C18_contract_injective.
(** the order is row-major *)
Theorem C18_row_major : forall n ns i is, length is = length ns ->
  contract_index (n :: ns) (i :: is) = contract_index ns is + i * fold_right Nat.mul 1 ns.
Proof. exact contract_cons'. Qed.
Print Assumptions C18_row_major.
Example C18_nonvacuous : expand_index [2; 3; 4] 23 = [1; 2; 3] /\ contract_index [2; 3; 4] [1; 0; 2] = 14 /\ Forall2 lt [1; 0; 2] [2; 3; 4].
Proof. split; [reflexivity|split; [reflexivity|repeat constructor]]. Qed.

Open Scope R_scope.
(** C18. The quadrature points are the element midpoints, strictly inside the box, one per element. *)
Theorem C18_quadrature_midpoints : forall lo up n i, (0 < n)%nat ->
  quad_coord lo up n i = ((lo + INR i / INR n * (up - lo)) + (lo + INR (S i) / INR n * (up - lo))) / 2.
Proof. exact quad_coord_mid. Qed.
Print Assumptions C18_quadrature_midpoints.
Theorem C18_quadrature_inside : forall lo up nelems k ix, (k < fold_right Nat.mul 1 nelems)%nat -> (ix < length nelems)%nat -> lo ix < up ix ->
  lo ix < quad_point lo up nelems k ix < up ix.
Proof. exact quad_point_in. Qed.
Print Assumptions C18_quadrature_inside.
Theorem C18_quadrature_distinct : forall lo up nelems j k, (j < fold_right Nat.mul 1 nelems)%nat -> (k < fold_right Nat.mul 1 nelems)%nat ->
  (forall ix, (ix < length nelems)%nat -> lo ix < up ix) ->
  (forall ix, (ix < length nelems)%nat -> quad_point lo up nelems j ix = quad_point lo up nelems k ix) -> j = k.
Proof. exact quad_point_inj. Qed.
Print Assumptions C18_quadrature_distinct.
(** C18. The extrapolation distance is measured from the closest point of the box. *)
Theorem C18_nearest_point : forall lo up x, lo <= up ->
  let b := x - ext_dist lo up x in
  lo <= b <= up /\ (forall y, lo <= y <= up -> Rabs (x - b) <= Rabs (x - y)) /\ (ext_dist lo up x = 0 <-> lo <= x <= up).
Proof. exact nearest_point. Qed.
Print Assumptions C18_nearest_point.
Example C18_quad_nonvacuous : quad_point (fun _ => 0) (fun _ => 2) [2%nat; 2%nat] 3 1 = 3 / 2 /\ ext_dist 0 2 5 = 3.
Proof.
  split.
  - unfold quad_point, quad_coord. cbn. lra.
  - unfold ext_dist, nearest. rewrite Rmax_right by lra. rewrite Rmin_left by lra. lra.
Qed.
