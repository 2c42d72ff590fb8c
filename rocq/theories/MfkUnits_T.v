(** Theorems C114. *)
From Coq Require Import Reals Arith Bool List Lia Lra.
From Verif Require Import RSum Mat Tri_M Kernels_M Krg_M Krg_S Mfk_M Mfk_S Het_S Order_S Order_P6 Mfk_P6 Krg_Qr MfkUnits_S MfkUnits_P3 MfkUnits_P7 MfkUnits_P8.
Import ListNotations.
Open Scope list_scope.
Open Scope R_scope.
(** Order of the points within the levels and units of inputs and outputs: same success, and values, intermediate values, variances of all
    levels and derivatives are the correspondingly rescaled ones. *)
Theorem C114_order_and_units : forall nx po rho qr rcond condF nugget, qr_contract qr -> rcond_contract rcond -> rcond_gram rcond -> cond_rows condF -> forall A B a b all all',
  (forall c, (c < nx)%nat -> 0 < A c) -> 0 < a -> same_data nx A B a b all all' ->
  (forall c, (c < nx)%nat -> varies all (fun d i => d_X d i c)) -> varies all d_y ->
  (mfk_train nx po rho qr rcond condF nugget all = None <-> mfk_train nx po rho qr rcond condF nugget all' = None) /\
  forall lvls lvls', mfk_train nx po rho qr rcond condF nugget all = Some lvls -> mfk_train nx po rho qr rcond condF nugget all' = Some lvls' -> forall x, let x' := fun c => A c * x c + B c in
  mfk_value nx po rho all' lvls' x' = option_map (fun v => a * v + b) (mfk_value nx po rho all lvls x) /\
  (forall k, predict_intermediate nx po rho all' lvls' k x' = option_map (fun v => a * v + b) (predict_intermediate nx po rho all lvls k x)) /\
  (forall inv pls, inv_contract inv -> mfk_variances nx po rho inv pls all' lvls' x' = map (fun v => a ^ 2 * v) (mfk_variances nx po rho inv pls all lvls x)) /\
  (forall corr kx, (kx < nx)%nat -> mfk_derivative nx po rho corr all' lvls' x' kx = option_map (fun v => v * a / A kx) (mfk_derivative nx po rho corr all lvls x kx)).
Proof. exact mfk_units. Qed.
Print Assumptions C114_order_and_units.
Example C114_nonvacuous : qr_contract gs_qr /\ rcond_contract rcond01 /\ rcond_gram rcond01 /\ cond_rows cond0 /\
  same_data 1 (fun _ => 2) (fun _ => 5) 3 (-1) w_all u_all /\ (forall c, (c < 1)%nat -> varies w_all (fun d i => d_X d i c)) /\ varies w_all d_y /\
  exists lvls, mfk_train 1 PConstant PConstant gs_qr rcond01 cond0 0 w_all = Some lvls.
Proof. exact (conj gs_contract (conj rcond01_contract (conj rcond01_gram (conj cond0_rows u_example)))). Qed.
(** Units of each level: if the degree of the scale-factor polynomial is at most that of the trend, writing the outputs of each level in its own
    units (factor of any sign, shift) changes the predictions and derivatives of a level only by the units of this very level, and likewise
    the variances of the two lowest levels. *)
Theorem C114_units_of_each_level : forall nx po rho qr rcond condF nugget, qr_contract qr -> rcond_contract rcond -> (degree rho <= degree po)%nat -> forall a b all, (forall k, a k <> 0) ->
  forall lvls lvls', mfk_train nx po rho qr rcond condF nugget all = Some lvls -> mfk_train nx po rho qr rcond condF nugget (level_units a b 0 all) = Some lvls' -> forall x,
  (forall k, (k < length all)%nat -> predict_intermediate nx po rho (level_units a b 0 all) lvls' (S k) x = option_map (fun v => a k * v + b k) (predict_intermediate nx po rho all lvls (S k) x)) /\
  (forall k, length all = S k -> mfk_value nx po rho (level_units a b 0 all) lvls' x = option_map (fun v => a k * v + b k) (mfk_value nx po rho all lvls x) /\
    forall corr kx, mfk_derivative nx po rho corr (level_units a b 0 all) lvls' x kx = option_map (fun v => a k * v) (mfk_derivative nx po rho corr all lvls x kx)) /\
  (forall inv pls k, inv_contract inv -> (k < 2)%nat ->
    nth_error (mfk_variances nx po rho inv pls (level_units a b 0 all) lvls' x) k = option_map (fun v => a k ^ 2 * v) (nth_error (mfk_variances nx po rho inv pls all lvls x) k)).
Proof.
  exact (fun nx po rho qr rcond condF nugget HQ HR HD a b all Ha lvls lvls' T T' x => conj (fun k Hk => value_k nx po rho qr rcond condF nugget HQ HR HD a b all Ha lvls lvls' T T' k x Hk)
    (conj (fun k E => conj (full_value nx po rho qr rcond condF nugget HQ HR HD a b all Ha lvls lvls' T T' x k E) (fun corr kx => full_deriv nx po rho qr rcond condF nugget HQ HR HD a b all Ha lvls lvls' T T' corr x kx k E))
    (fun inv pls k HI Hk => vars_k nx po rho qr rcond condF nugget HQ HR HD a b all Ha lvls lvls' T T' inv pls x k HI Hk))).
Qed.
Print Assumptions C114_units_of_each_level.
Example C114_nonvacuous_levels : (degree PConstant <= degree PConstant)%nat /\ (forall k, v_a k <> 0) /\ v_a 0 <> v_a 1 /\
  (exists lvls, mfk_train 1 PConstant PConstant gs_qr rcond01 cond0 0 w_all = Some lvls) /\ exists lvls, mfk_train 1 PConstant PConstant gs_qr rcond01 cond0 0 (level_units v_a v_b 0 w_all) = Some lvls.
Proof. exact (conj (le_n _) (conj v_nz (conj (Rlt_not_eq (-2) 3 ltac:(lra)) (conj w_train v_ok)))). Qed.
