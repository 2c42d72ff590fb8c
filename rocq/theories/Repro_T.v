(** Property C121: RMTS models reproduce functions that are affine in each coordinate, and trained models fit at least as well. *)
From Coq Require Import Reals ZArith Arith Bool List Lia Lra.
From Coquelicot Require Import Coquelicot.
From Verif Require Import RSum Mat Index_M Rmtb_M Rmtb_S Rmtc_M Rmtc_S RmtsTrain_M Rmtb_P2 Rmtb_P4 Rmtc_P2 Rmtc_P4 Repro_S Repro_P2 Repro_P3 Repro_P4 Repro_P5.
Import ListNotations.
Open Scope list_scope.
Open Scope R_scope.

(** C121, B-splines of order at least 2 in each dimension.  With the values of [f] at the Greville points as control values the model is
    exactly [f] wherever the normalised coordinates are in [1e-15, 1 - 1e-15]; elsewhere it is [f] at the clipped point. *)
Theorem C121_rmtb_values : forall orders ncps lo up f, Forall2 (fun o n => (2 <= o <= n)%nat) orders ncps -> multi_affine (length orders) f -> forall x,
  rmtb_value orders ncps lo up false (fun z => greville_values orders ncps lo up f (Z.to_nat z)) x =
  f (fun k => lo k + (up k - lo k) * Rmin (Rmax ((x k - lo k) / (up k - lo k)) (0 + / 10 ^ 15)) (1 - / 10 ^ 15)).
Proof. exact rmtb_reproduces. Qed.
Print Assumptions C121_rmtb_values.
Theorem C121_rmtb_inside : forall orders ncps lo up f, Forall2 (fun o n => (2 <= o <= n)%nat) orders ncps -> multi_affine (length orders) f -> forall x,
  (forall k, (k < length orders)%nat -> lo k < up k /\ / 10 ^ 15 <= (x k - lo k) / (up k - lo k) <= 1 - / 10 ^ 15) ->
  rmtb_value orders ncps lo up false (fun z => greville_values orders ncps lo up f (Z.to_nat z)) x = f x.
Proof. exact rmtb_inside. Qed.
Print Assumptions C121_rmtb_inside.
(** The derivative predictions are those of [f], *)
Theorem C121_rmtb_derivatives : forall orders ncps lo up f, Forall2 (fun o n => (2 <= o <= n)%nat) orders ncps -> 
  (forall k, (k < length orders)%nat -> lo k < up k) -> multi_affine (length orders) f -> forall kx x, (kx < length orders)%nat ->
  rmtb_derivative orders ncps lo up false (fun z => greville_values orders ncps lo up f (Z.to_nat z)) kx x =
  slope f kx (fun k => lo k + (up k - lo k) * Rmin (Rmax ((x k - lo k) / (up k - lo k)) (0 + / 10 ^ 15)) (1 - / 10 ^ 15)).
Proof. exact rmtb_reproduces_slope. Qed.
Print Assumptions C121_rmtb_derivatives.
(** [slope] being the partial derivative. *)
Theorem C121_slope_is_derivative : forall nx f, multi_affine nx f -> forall k x, (k < nx)%nat -> forall z, is_derive (fun t => f (upd x k t)) z (slope f k x).
Proof. exact slope_derive. Qed.
Print Assumptions C121_slope_is_derivative.
(** Linear functions are among these functions. *)
Theorem C121_linear_functions : forall nx a (b : nat -> R), multi_affine nx (fun x => a + rsum nx (fun k => b k * x k)).
Proof. exact linear_multi_affine. Qed.
Print Assumptions C121_linear_functions.
(** Order 1 is an exception: with one control point a coordinate is not reproduced. *)
Theorem C121_order_one_refuted : ~ exists c : Z -> R, forall x : nat -> R, 1 / 4 <= x 0%nat <= 1 / 2 ->
  rmtb_value [1%nat] [1%nat] (fun _ => 0) (fun _ => 1) false c x = x 0%nat.
Proof. exact order_one. Qed.
Print Assumptions C121_order_one_refuted.

(** C121, cubic Hermite elements: the same with vertex values and mixed derivatives, in the whole domain including its boundary *)
Theorem C121_rmtc_values : forall nelems lo up inv f, (forall k, (k < length nelems)%nat -> lo k < up k) ->
  (forall k, (k < length nelems)%nat -> (0 < nth k nelems 0)%nat) -> is_inverse (nterm nelems) (coeff2nodal nelems) inv ->
  multi_affine (length nelems) f -> forall x,
  rmtc_value nelems lo up false inv (vertex_values nelems lo up f) x = f (fun k => Rmin (up k) (Rmax (lo k) (x k))).
Proof. exact (fun nelems lo up inv f Hb He Hi => rmtc_reproduces nelems lo up inv f Hb He (inverse_left nelems inv Hi)). Qed.
Print Assumptions C121_rmtc_values.
Theorem C121_rmtc_derivatives : forall nelems lo up inv f, (forall k, (k < length nelems)%nat -> lo k < up k) ->
  (forall k, (k < length nelems)%nat -> (0 < nth k nelems 0)%nat) -> is_inverse (nterm nelems) (coeff2nodal nelems) inv ->
  multi_affine (length nelems) f -> forall kx x, (kx < length nelems)%nat ->
  rmtc_derivative nelems lo up false inv (vertex_values nelems lo up f) kx x = slope f kx (fun k => Rmin (up k) (Rmax (lo k) (x k))).
Proof. exact (fun nelems lo up inv f Hb He Hi => rmtc_reproduces_slope nelems lo up inv f Hb He (inverse_left nelems inv Hi)). Qed.
Print Assumptions C121_rmtc_derivatives.

(** With extrapolation RMTC reproduces linear functions everywhere, RMTB up to its clipping: the error is at most 1e-15 times the sum of
    the changes over the box. *)
Theorem C121_rmtc_linear_extrapolation : forall nelems lo up inv a (b : nat -> R), (forall k, (k < length nelems)%nat -> lo k < up k) ->
  (forall k, (k < length nelems)%nat -> (0 < nth k nelems 0)%nat) -> is_inverse (nterm nelems) (coeff2nodal nelems) inv ->
  let f := fun x => a + rsum (length nelems) (fun k => b k * x k) in forall x,
  rmtc_value nelems lo up true inv (vertex_values nelems lo up f) x = f x.
Proof. exact (fun nelems lo up inv a b Hb He Hi => rmtc_linear_ext nelems lo up inv a b Hb He (inverse_left nelems inv Hi)). Qed.
Print Assumptions C121_rmtc_linear_extrapolation.
Theorem C121_rmtb_linear_extrapolation : forall orders ncps lo up a (b : nat -> R), Forall2 (fun o n => (2 <= o <= n)%nat) orders ncps ->
  (forall k, (k < length orders)%nat -> lo k < up k) ->
  let f := fun x => a + rsum (length orders) (fun k => b k * x k) in forall x,
  Rabs (rmtb_value orders ncps lo up true (fun z => greville_values orders ncps lo up f (Z.to_nat z)) x - f x) <=
  / 10 ^ 15 * rsum (length orders) (fun k => Rabs (b k) * (up k - lo k)).
Proof. exact rmtb_linear_ext. Qed.
Print Assumptions C121_rmtb_linear_extrapolation.

(** C121, training.  [data] as in C109.  The objective of a trained model is at most that of any function affine in each coordinate: half of
    regularization_weight times the squares of its degrees of freedom, plus its misfit; nothing for the energy, whatever its weight. *)
Theorem C121_rmtb_training : forall orders ncps lo up f, Forall2 (fun o n => (2 <= o <= n)%nat) orders ncps ->
  (forall k, (k < length orders)%nat -> lo k < up k) ->
  let nx := length orders in let nelems := map (fun on => (snd on - fst on + 1)%nat) (combine orders ncps) in
  (forall k, (k < nx)%nat -> INR (nth k nelems 0%nat) <= 10 ^ 14) -> multi_affine nx f ->
  forall reg_w energy_w min_energy smoothness p data yt, 0 <= energy_w -> (forall k, (k < nx)%nat -> 0 <= smoothness k) ->
  (forall kx nt xt c, In (kx, nt, xt, c) data -> (kx <= nx)%nat) ->
  let n := prodl ncps in let w := fun k => up k - lo k in
  let objective := opt_func n (full_hess reg_w energy_w min_energy (energy_hess nx (prodl (map (fun m => 2 * m)%nat nelems)) (rmtb_energy_row orders ncps nelems lo up) w smoothness (vol_fraction nelems w)))
      (map (fun '(kx, nt, xt, c) => mkB kx nt (rmtb_jac orders ncps lo up kx xt) c) data) p yt in
  let misfit := fun model : nat -> vec -> R => lsum (fun '(kx, nt, xt, c) => 1 / 2 * c * rsum nt (fun t => (model kx (xt t) - yt kx t) ^ p)) data in
  let clip := fun (x : vec) k => lo k + (up k - lo k) * Rmin (Rmax ((x k - lo k) / (up k - lo k)) (0 + / 10 ^ 15)) (1 - / 10 ^ 15) in
  forall sol, (forall s, objective sol <= objective s) ->
  1 / 2 * reg_w * rsum n (fun j => sol j ^ 2) + misfit (fun kx x => match kx with
      | O => rmtb_value orders ncps lo up false (fun z => sol (Z.to_nat z)) x
      | S k => rmtb_derivative orders ncps lo up false (fun z => sol (Z.to_nat z)) k x end) <=
  1 / 2 * reg_w * rsum n (fun j => greville_values orders ncps lo up f j ^ 2) + misfit (fun kx x => match kx with O => f (clip x) | S k => slope f k (clip x) end).
Proof. exact (fun orders ncps lo up f Hd Hb Hs Hf rw ew me sm p data yt He Hsm Hk sol M => rmtb_training_bound orders ncps lo up f Hd Hb Hs Hf rw ew me sm p data yt He Hsm Hk sol M). Qed.
Print Assumptions C121_rmtb_training.
(** approximation_order 2: whatever training returns *)
Theorem C121_rmtb_quadratic_training : forall orders ncps lo up f, Forall2 (fun o n => (2 <= o <= n)%nat) orders ncps ->
  (forall k, (k < length orders)%nat -> lo k < up k) ->
  let nx := length orders in let nelems := map (fun on => (snd on - fst on + 1)%nat) (combine orders ncps) in
  (forall k, (k < nx)%nat -> INR (nth k nelems 0%nat) <= 10 ^ 14) -> multi_affine nx f ->
  forall reg_w energy_w min_energy smoothness data yt, 0 < reg_w -> 0 <= energy_w -> (forall k, (k < nx)%nat -> 0 <= smoothness k) ->
  (forall kx nt xt c, In (kx, nt, xt, c) data -> (kx <= nx)%nat /\ 0 <= c) ->
  let n := prodl ncps in let w := fun k => up k - lo k in
  let H := full_hess reg_w energy_w min_energy (energy_hess nx (prodl (map (fun m => 2 * m)%nat nelems)) (rmtb_energy_row orders ncps nelems lo up) w smoothness (vol_fraction nelems w)) in
  let blocks := map (fun '(kx, nt, xt, c) => mkB kx nt (rmtb_jac orders ncps lo up kx xt) c) data in
  let misfit := fun model : nat -> vec -> R => lsum (fun '(kx, nt, xt, c) => 1 / 2 * c * rsum nt (fun t => (model kx (xt t) - yt kx t) ^ 2)) data in
  let clip := fun (x : vec) k => lo k + (up k - lo k) * Rmin (Rmax ((x k - lo k) / (up k - lo k)) (0 + / 10 ^ 15)) (1 - / 10 ^ 15) in
  forall solve, (forall M r, msym n M -> mpd n M -> forall k, (k < n)%nat -> mv n M (solve M r) k = r k) ->
  forall bf maxiter tol, (1 <= bf)%nat -> 0 <= tol -> forall sol mtx,
  rmts_train n H blocks yt solve (backtracking_search n bf) 2 maxiter tol = Trained sol mtx ->
  1 / 2 * reg_w * rsum n (fun j => sol j ^ 2) + misfit (fun kx x => match kx with
      | O => rmtb_value orders ncps lo up false (fun z => sol (Z.to_nat z)) x
      | S k => rmtb_derivative orders ncps lo up false (fun z => sol (Z.to_nat z)) k x end) <=
  1 / 2 * reg_w * rsum n (fun j => greville_values orders ncps lo up f j ^ 2) + misfit (fun kx x => match kx with O => f (clip x) | S k => slope f k (clip x) end).
Proof.
  exact (fun orders ncps lo up f Hd Hb Hs Hf rw ew me sm data yt Hr He Hsm Hk solve K bf mi tol B T sol mtx E =>
    rmtb_quadratic_bound orders ncps lo up f Hd Hb Hs Hf rw ew me sm 2 data yt He Hsm (fun kx nt xt c Hi => proj1 (Hk kx nt xt c Hi))
      solve bf mi tol sol mtx eq_refl Hr (fun kx nt xt c Hi => proj2 (Hk kx nt xt c Hi)) K B T E).
Qed.
Print Assumptions C121_rmtb_quadratic_training.
Theorem C121_rmtc_training : forall nelems lo up inv f, (forall k, (k < length nelems)%nat -> lo k < up k) ->
  (forall k, (k < length nelems)%nat -> (0 < nth k nelems 0)%nat) -> is_inverse (nterm nelems) (coeff2nodal nelems) inv ->
  let nx := length nelems in multi_affine nx f ->
  forall reg_w energy_w min_energy smoothness p data yt, 0 <= energy_w -> (forall k, (k < nx)%nat -> 0 <= smoothness k) ->
  (forall kx nt xt c, In (kx, nt, xt, c) data -> (kx <= nx)%nat) ->
  let n := (2 ^ nx * nuniq nelems)%nat in let w := fun k => up k - lo k in
  let objective := opt_func n (full_hess reg_w energy_w min_energy (energy_hess nx (prodl (map (fun m => 2 * m)%nat nelems))
        (fun k => mm (nelem nelems * nterm nelems) (rmtc_energy_row nelems lo up k) (dof2coeff_mat nelems inv)) w smoothness (vol_fraction nelems w)))
      (map (fun '(kx, nt, xt, c) => mkB kx nt (rmtc_jac nelems lo up inv kx xt) c) data) p yt in
  let misfit := fun model : nat -> vec -> R => lsum (fun '(kx, nt, xt, c) => 1 / 2 * c * rsum nt (fun t => (model kx (xt t) - yt kx t) ^ p)) data in
  let clip := fun (x : vec) k => Rmin (up k) (Rmax (lo k) (x k)) in
  forall sol, (forall s, objective sol <= objective s) ->
  1 / 2 * reg_w * rsum n (fun j => sol j ^ 2) + misfit (fun kx x => match kx with
      | O => rmtc_value nelems lo up false inv sol x
      | S k => rmtc_derivative nelems lo up false inv sol k x end) <=
  1 / 2 * reg_w * rsum n (fun j => vertex_values nelems lo up f j ^ 2) + misfit (fun kx x => match kx with O => f (clip x) | S k => slope f k (clip x) end).
Proof.
  exact (fun nelems lo up inv f Hb He Hi Hf rw ew me sm p data yt Hew Hsm Hk sol M =>
    rmtc_training_bound nelems lo up inv f Hb He (inverse_left nelems inv Hi) Hf rw ew me sm p data yt Hew Hsm Hk sol M).
Qed.
Print Assumptions C121_rmtc_training.
Theorem C121_rmtc_quadratic_training : forall nelems lo up inv f, (forall k, (k < length nelems)%nat -> lo k < up k) ->
  (forall k, (k < length nelems)%nat -> (0 < nth k nelems 0)%nat) -> is_inverse (nterm nelems) (coeff2nodal nelems) inv ->
  let nx := length nelems in multi_affine nx f ->
  forall reg_w energy_w min_energy smoothness data yt, 0 < reg_w -> 0 <= energy_w -> (forall k, (k < nx)%nat -> 0 <= smoothness k) ->
  (forall kx nt xt c, In (kx, nt, xt, c) data -> (kx <= nx)%nat /\ 0 <= c) ->
  let n := (2 ^ nx * nuniq nelems)%nat in let w := fun k => up k - lo k in
  let H := full_hess reg_w energy_w min_energy (energy_hess nx (prodl (map (fun m => 2 * m)%nat nelems))
        (fun k => mm (nelem nelems * nterm nelems) (rmtc_energy_row nelems lo up k) (dof2coeff_mat nelems inv)) w smoothness (vol_fraction nelems w)) in
  let blocks := map (fun '(kx, nt, xt, c) => mkB kx nt (rmtc_jac nelems lo up inv kx xt) c) data in
  let misfit := fun model : nat -> vec -> R => lsum (fun '(kx, nt, xt, c) => 1 / 2 * c * rsum nt (fun t => (model kx (xt t) - yt kx t) ^ 2)) data in
  let clip := fun (x : vec) k => Rmin (up k) (Rmax (lo k) (x k)) in
  forall solve, (forall M r, msym n M -> mpd n M -> forall k, (k < n)%nat -> mv n M (solve M r) k = r k) ->
  forall bf maxiter tol, (1 <= bf)%nat -> 0 <= tol -> forall sol mtx,
  rmts_train n H blocks yt solve (backtracking_search n bf) 2 maxiter tol = Trained sol mtx ->
  1 / 2 * reg_w * rsum n (fun j => sol j ^ 2) + misfit (fun kx x => match kx with
      | O => rmtc_value nelems lo up false inv sol x
      | S k => rmtc_derivative nelems lo up false inv sol k x end) <=
  1 / 2 * reg_w * rsum n (fun j => vertex_values nelems lo up f j ^ 2) + misfit (fun kx x => match kx with O => f (clip x) | S k => slope f k (clip x) end).
Proof.
  exact (fun nelems lo up inv f Hb He Hi Hf rw ew me sm data yt Hr Hew Hsm Hk solve K bf mi tol B T sol mtx E =>
    rmtc_quadratic_bound nelems lo up inv f Hb He (inverse_left nelems inv Hi) Hf rw ew me sm 2 data yt Hew Hsm (fun kx nt xt c Hi => proj1 (Hk kx nt xt c Hi))
      solve bf mi tol sol mtx eq_refl Hr (fun kx nt xt c Hi => proj2 (Hk kx nt xt c Hi)) K B T E).
Qed.
Print Assumptions C121_rmtc_quadratic_training.

(** 1 + 2 x0 + 3 x0 x1 on 2 x 1 elements; Greville points and degrees of freedom are as expected *)
Example C121_nonvacuous : multi_affine 2 f_ex /\ Forall2 (fun o n => (2 <= o <= n)%nat) [3; 2]%nat [5; 4]%nat /\
  (greville 3 5 0 = - (1 / 6) /\ greville 2 4 1 = 1 / 3) /\
  (vertex_values [2; 1]%nat (fun _ => 0) (fun _ => 1) f_ex 3 = 7 / 2 /\ vertex_values [2; 1]%nat (fun _ => 0) (fun _ => 1) f_ex 9 = 3 / 4) /\
  exists inv, is_inverse (nterm [2; 1]%nat) (coeff2nodal [2; 1]%nat) inv.
Proof.
  assert (D : Forall2 (fun o n => (2 <= o <= n)%nat) [3; 2]%nat [5; 4]%nat) by (repeat constructor).
  exact (conj f_ex_affine (conj D (conj grev_ex (conj vertex_ex (ex_intro _ _ (inverse_exists [2; 1]%nat)))))).
Qed.
