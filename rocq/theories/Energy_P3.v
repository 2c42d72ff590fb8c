From Coq Require Import FunctionalExtensionality Reals ZArith Arith Bool List Lia Lra Psatz.
From Coquelicot Require Import Coquelicot.
From Verif Require Import RSum Mat Index_M Index_P Rmtb_M Rmtb_S Rmtb_P Rmtb_P2 Rmtb_P3 Rmtb_P4 Rmtb_P5 Rmtc_M RmtsTrain_M RmtsTrain_P RmtsTrain_P2 RmtsTrain_P4 Energy_P Energy_P2.
Import ListNotations.
Open Scope list_scope.
Open Scope R_scope.

(** * second derivative as a derivative of order 2 *)
Lemma second_of (f f' : R -> R) x d : locally x (fun z => is_derive f z (f' z)) -> is_derive f' x d -> is_derive_n f 2 x d.
Proof.
  intros L D. cbn [is_derive_n]. apply (is_derive_ext_loc f'); [|exact D]. revert L. apply filter_imp. intros z Hz. cbn [Derive_n]. symmetry. apply is_derive_unique. exact Hz.
Qed.
Lemma upd_upd (x : vec) k z z' : forall j, upd (upd x k z) k z' j = upd x k z' j.
Proof. intros j. destruct (Nat.eq_dec j k) as [-> |N]; [rewrite !upd_eq; reflexivity|rewrite !upd_neq by exact N; reflexivity]. Qed.
Lemma partial_line (g : vec -> R) x k z d : is_partial g (upd x k z) k d -> is_derive (fun z => g (upd x k z)) z d.
Proof.
  intros H. unfold is_partial in H. rewrite upd_eq in H. apply (is_derive_ext (fun z' => g (upd (upd x k z) k z'))); [|exact H]. intros z'. f_equal. apply FunctionalExtensionality.functional_extensionality. apply upd_upd.
Qed.
Lemma interior_open orders ncps lo up kx x : (1 <= nth kx orders 0 <= nth kx ncps 0)%nat -> lo kx < up kx -> interior orders ncps lo up kx x ->
  locally (x kx) (fun z => interior orders ncps lo up kx (upd x kx z)).
Proof.
  intros Ho L (Hi & Hn). set (o := nth kx orders 0%nat) in *. set (nc := nth kx ncps 0%nat) in *. set (m := INR nc - INR o + 1).
  assert (M : 0 < m) by (unfold m; assert (INR o <= INR nc) by (apply le_INR; lia); lra).
  set (t := fun z : R => (z - lo kx) / (up kx - lo kx)). fold (t (x kx)) in *.
  destruct (base_Int_part (m * t (x kx))) as (A & B). set (f := Int_part (m * t (x kx))) in *.
  assert (K : forall j : Z, uniform_knots o nc j = (IZR j - INR o + 1) / m) by (intros; reflexivity).
  assert (C : m * t (x kx) <> IZR f).
  { intros E. apply (Hn (f + Z.of_nat o - 1)%Z). rewrite K. rewrite minus_IZR, plus_IZR, <- INR_IZR_INZ. apply Rmult_eq_reg_l with m; [|lra]. rewrite E. field. lra. }
  assert (Ct : continuous t (x kx)) by (apply (ex_derive_continuous (K := R_AbsRing) (V := R_NormedModule)); exists (/ (up kx - lo kx)); unfold t; auto_derive; [lra|field; lra]).
  apply (filter_imp (fun z => eps < t z < 1 - eps /\ IZR f / m < t z < (IZR f + 1) / m)).
  - intros z (H1 & H2 & H3). unfold interior. rewrite upd_eq. fold (t z). fold o nc. split; [exact H1|]. intros j E. rewrite K in E. rewrite E in H2, H3.
    apply Rmult_lt_compat_r with (r := m) in H2; [|exact M]. apply Rmult_lt_compat_r with (r := m) in H3; [|exact M].
    replace (IZR f / m * m) with (IZR f) in H2 by (field; lra). replace ((IZR f + 1) / m * m) with (IZR f + 1) in H3 by (field; lra).
    replace ((IZR j - INR o + 1) / m * m) with (IZR j - INR o + 1) in H2, H3 by (field; lra).
    rewrite INR_IZR_INZ in H2, H3. rewrite <- minus_IZR in H2. rewrite <- !plus_IZR in H2. rewrite <- minus_IZR in H3. rewrite <- !plus_IZR in H3. apply lt_IZR in H2. apply lt_IZR in H3. lia.
  - apply filter_and; [apply (nhood t eps (1 - eps)); auto|]. apply (nhood t (IZR f / m) ((IZR f + 1) / m)); [exact Ct| |auto].
    split; apply Rmult_lt_reg_l with m; try exact M.
    + replace (m * (IZR f / m)) with (IZR f) by (field; lra). lra.
    + replace (m * ((IZR f + 1) / m)) with (IZR f + 1) by (field; lra). lra.
Qed.
Lemma objective_terms {A} n H (mk : A -> block) (model : A -> nat -> R) (data : list A) p yt sol :
  (forall a t, In a data -> mv n (b_J (mk a)) sol t = model a t) ->
  opt_func n H (map mk data) p yt sol = 1 / 2 * dot n sol (mv n H sol) + lsum (fun a => 1 / 2 * b_c (mk a) * rsum (b_nt (mk a)) (fun t => (model a t - yt (b_kx (mk a)) t) ^ p)) data.
Proof.
  intros Hm. unfold opt_func. rewrite fold_left_lsum. f_equal. induction data as [|a data IH]; [reflexivity|]. cbn [map lsum]. rewrite IH by (intros; apply Hm; right; assumption).
  f_equal. f_equal. apply rsum_ext. intros t _. unfold resid. rewrite Hm by (left; reflexivity). reflexivity.
Qed.
Lemma full_form n rw ew me E sol : dot n sol (mv n (full_hess rw ew me E) sol) = rw * rsum n (fun j => sol j ^ 2) + (if me then ew * dot n sol (mv n E sol) else 0).
Proof.
  assert (R : forall i, (i < n)%nat -> mv n (reg_hess rw) sol i = rw * sol i).
  { intros i Hi. unfold mv, reg_hess. rewrite (rsum_ext n _ (fun j => if Nat.eqb j i then rw * sol j else 0)); [apply (rsum_single n (fun j => rw * sol j)); exact Hi|].
    intros j _. rewrite Nat.eqb_sym. destruct (Nat.eqb j i); ring. }
  assert (Q : dot n sol (mv n (reg_hess rw) sol) = rw * rsum n (fun j => sol j ^ 2)).
  { unfold dot. rewrite <- rsum_scal_l. apply rsum_ext. intros i Hi. rewrite R by exact Hi. ring. }
  destruct me; unfold full_hess; [|rewrite Q; ring]. rewrite <- Q. unfold dot. rewrite <- rsum_scal_l, <- rsum_plus. apply rsum_ext. intros i Hi.
  assert (X : mv n (fun i j => reg_hess rw i j + E i j * ew) sol i = mv n (reg_hess rw) sol i + ew * mv n E sol i).
  { unfold mv. rewrite <- rsum_scal_l, <- rsum_plus. apply rsum_ext. intros j _. ring. }
  rewrite X. ring.
Qed.

(** * RMTB *)
Definition elems (orders ncps : list nat) : list nat := map (fun on => (snd on - fst on + 1)%nat) (combine orders ncps).
Definition wide (lo up : nat -> R) : nat -> R := fun k => up k - lo k.
Lemma elems_length orders ncps : length orders = length ncps -> length (elems orders ncps) = length orders.
Proof. intros H. unfold elems. rewrite map_length, combine_length, H. lia. Qed.
Lemma elems_pos orders ncps k : (k < length (elems orders ncps))%nat -> (0 < nth k (elems orders ncps) 0)%nat.
Proof.
  intros H. unfold elems in *. rewrite (nth_indep _ 0%nat ((fun on : nat * nat => (snd on - fst on + 1)%nat) (0%nat, 0%nat))) by exact H.
  rewrite (map_nth (fun on : nat * nat => (snd on - fst on + 1)%nat)). lia.
Qed.
Section B.
Variables (orders ncps : list nat) (lo up : nat -> R).
Hypothesis Hdim : Forall2 (fun o n => (1 <= o <= n)%nat) orders ncps.
Let nx := length orders.
Let nelems := elems orders ncps.
Hypothesis Hbox : forall k, (k < nx)%nat -> lo k < up k.
Hypothesis Hsz : forall k, (k < nx)%nat -> INR (nth k nelems 0%nat) <= 10 ^ 14.
Variables (rw ew : R) (me : bool) (sm : nat -> R) (p : nat) (sol : vec) (data : list (nat * nat * (nat -> vec) * R)) (yt : nat -> nat -> R).
Let n := prodl ncps.
Let coef : Z -> R := fun z => sol (Z.to_nat z).
Let fit (kx : nat) (x : vec) : R := match kx with O => rmtb_value orders ncps lo up false coef x | S k => rmtb_derivative orders ncps lo up false coef k x end.
Let xq (q : nat) : vec := quad_point lo up (map (fun m => 2 * m)%nat nelems) q.
Lemma rmtb_fit_row kx xt t : mv n (rmtb_jac orders ncps lo up kx xt) sol t = fit kx (xt t).
Proof.
  unfold mv, rmtb_jac. rewrite scatter_dot by (intros inz Hi; apply columns_in_range; assumption). unfold fit. destruct kx; [rewrite value_eq|rewrite deriv_eq]; rewrite Rplus_0_r; reflexivity.
Qed.
Lemma rmtb_second_n k q : (k < nx)%nat -> (q < nquad nelems)%nat ->
  is_derive_n (fun z => fit 0 (upd (xq q) k z)) 2 (xq q k) (mv n (rmtb_energy_row orders ncps nelems lo up k) sol q).
Proof.
  intros Hk Hq. pose proof (quad_interior orders ncps lo up k q Hdim Hbox Hsz Hk Hq) as Hi. fold nelems in Hi. fold (xq q) in Hi.
  unfold n. rewrite rmtb_row by exact Hdim. fold coef. fold (xq q).
  apply (second_of _ (fun z => rmtb_derivative orders ncps lo up false coef k (upd (xq q) k z))).
  - pose proof (interior_open orders ncps lo up k (xq q) (dim_ok orders ncps Hdim k Hk) (Hbox k Hk) Hi) as N. revert N. apply filter_imp. intros z Hz.
    apply partial_line. apply derivative_correct; [exact Hdim|exact Hbox|exact Hk|left; exact Hz].
  - apply (rmtb_second orders ncps lo up coef Hdim Hbox k (xq q) Hk Hi).
Qed.
Lemma rmtb_objective : exists d2 : nat -> nat -> R,
  (forall k q, (k < nx)%nat -> (q < nquad nelems)%nat -> is_derive_n (fun z => fit 0 (upd (xq q) k z)) 2 (xq q k) (d2 k q)) /\
  opt_func n (full_hess rw ew me (energy_hess nx (nquad nelems) (rmtb_energy_row orders ncps nelems lo up) (wide lo up) sm (vol_fraction nelems (wide lo up))))
    (map (fun '(kx, nt, xt, c) => mkB kx nt (rmtb_jac orders ncps lo up kx xt) c) data) p yt sol =
  1 / 2 * rw * rsum n (fun j => sol j ^ 2)
  + (if me then 1 / 2 * ew * (rsum (nquad nelems) (fun q => rsum nx (fun k => sm k * d2 k q ^ 2)) / INR (nquad nelems)) else 0)
  + lsum (fun '(kx, nt, xt, c) => 1 / 2 * c * rsum nt (fun t => (fit kx (xt t) - yt kx t) ^ p)) data.
Proof.
  exists (fun k q => mv n (rmtb_energy_row orders ncps nelems lo up k) sol q). split; [exact rmtb_second_n|].
  rewrite (objective_terms n _ (fun '(kx, nt, xt, c) => mkB kx nt (rmtb_jac orders ncps lo up kx xt) c) (fun '(kx, nt, xt, c) t => fit kx (xt t)) data p yt sol).
  2:{ intros [[[kx nt] xt] c] t _. cbn [b_J]. apply rmtb_fit_row. }
  rewrite full_form.
  assert (Ll : length nelems = nx) by (apply elems_length; apply (F2_length _ _ _ Hdim)).
  assert (EM := energy_mean n nelems (rmtb_energy_row orders ncps nelems lo up) (wide lo up) sm sol). rewrite Ll in EM.
  rewrite EM; [|intros k Hk; unfold wide; pose proof (Hbox k Hk); lra|intros k Hk; apply elems_pos; fold nelems; rewrite Ll; exact Hk].
  f_equal; [destruct me; ring|]. apply lsum_ext. intros [[[kx nt] xt] c] _. reflexivity.
Qed.
End B.
(** * RMTC *)
Section C.
Variables (nelems : list nat) (lo up : nat -> R) (inv : nat -> nat -> R).
Let nx := length nelems.
Notation nterm := (Rmtc_M.nterm nelems).
Hypothesis Hbox : forall k, (k < nx)%nat -> lo k < up k.
Hypothesis Hel : forall k, (k < nx)%nat -> (0 < nth k nelems 0)%nat.
Hypothesis Hinv : forall i j, (i < nterm)%nat -> (j < nterm)%nat -> rsum nterm (fun k => inv i k * coeff2nodal nelems k j) = if Nat.eqb i j then 1 else 0.
Variables (rw ew : R) (me : bool) (sm : nat -> R) (p : nat) (sol : vec) (data : list (nat * nat * (nat -> vec) * R)) (yt : nat -> nat -> R).
Let n := (2 ^ nx * nuniq nelems)%nat.
Let fit (kx : nat) (x : vec) : R := match kx with O => rmtc_value nelems lo up false inv sol x | S k => rmtc_derivative nelems lo up false inv sol k x end.
Let xq (q : nat) : vec := quad_point lo up (map (fun m => 2 * m)%nat nelems) q.
Let D (k : nat) : mat := mm (nelem nelems * nterm) (rmtc_energy_row nelems lo up k) (dof2coeff_mat nelems inv).
Lemma rmtc_fit_row kx xt t : mv n (rmtc_jac nelems lo up inv kx xt) sol t = fit kx (xt t).
Proof.
  unfold rmtc_jac. rewrite mv_mm. unfold mv at 1.
  rewrite (rsum_ext _ _ (fun j => scatter nterm (rmtc_data nelems lo up kx 0 (xt t)) (rmtc_col nelems lo up kx 0 (xt t)) j * dof2coeff nelems inv sol j)) by (intros j Hj; unfold n, nx; rewrite dof2coeff_lin by assumption; reflexivity).
  rewrite scatter_dot by (intros t' Ht; apply Rmtc_P4.col_range; assumption). unfold fit. destruct kx.
  - rewrite Rmtc_P4.value_eq by assumption. unfold Rmtc_P3.gen_value. rewrite Rplus_0_r. reflexivity.
  - rewrite Rmtc_P4.deriv_eq by assumption. unfold Rmtc_P3.gen_deriv. rewrite Rplus_0_r. reflexivity.
Qed.
Lemma rmtc_second_n k q : (k < nx)%nat -> (q < nquad nelems)%nat -> is_derive_n (fun z => fit 0 (upd (xq q) k z)) 2 (xq q k) (mv n (D k) sol q).
Proof.
  intros Hk Hq. pose proof (quad_strict nelems lo up Hbox Hel k q Hk Hq) as Hi. fold (xq q) in Hi.
  unfold D, n, nx. rewrite rmtc_row by assumption. fold (xq q).
  apply (second_of _ (fun z => rmtc_derivative nelems lo up false inv sol k (upd (xq q) k z))).
  - destruct Hi as (Hi & _). assert (N : locally (xq q k) (fun z => lo k < z < up k)) by (apply (nhood (fun y => y) (lo k) (up k)); [apply continuous_id|exact Hi|auto]).
    revert N. apply filter_imp. intros z Hz. apply partial_line. apply Rmtc_P4.derivative_correct; try assumption. left. rewrite upd_eq. exact Hz.
  - apply (rmtc_second nelems lo up inv sol Hbox Hel Hinv k (xq q) Hk Hi).
Qed.
Lemma rmtc_objective : exists d2 : nat -> nat -> R,
  (forall k q, (k < nx)%nat -> (q < nquad nelems)%nat -> is_derive_n (fun z => fit 0 (upd (xq q) k z)) 2 (xq q k) (d2 k q)) /\
  opt_func n (full_hess rw ew me (energy_hess nx (nquad nelems) D (wide lo up) sm (vol_fraction nelems (wide lo up))))
    (map (fun '(kx, nt, xt, c) => mkB kx nt (rmtc_jac nelems lo up inv kx xt) c) data) p yt sol =
  1 / 2 * rw * rsum n (fun j => sol j ^ 2)
  + (if me then 1 / 2 * ew * (rsum (nquad nelems) (fun q => rsum nx (fun k => sm k * d2 k q ^ 2)) / INR (nquad nelems)) else 0)
  + lsum (fun '(kx, nt, xt, c) => 1 / 2 * c * rsum nt (fun t => (fit kx (xt t) - yt kx t) ^ p)) data.
Proof.
  exists (fun k q => mv n (D k) sol q). split; [exact rmtc_second_n|].
  rewrite (objective_terms n _ (fun '(kx, nt, xt, c) => mkB kx nt (rmtc_jac nelems lo up inv kx xt) c) (fun '(kx, nt, xt, c) t => fit kx (xt t)) data p yt sol).
  2:{ intros [[[kx nt] xt] c] t _. cbn [b_J]. apply rmtc_fit_row. }
  rewrite full_form. assert (EM := energy_mean n nelems D (wide lo up) sm sol). fold nx in EM.
  rewrite EM; [|intros k Hk; unfold wide; pose proof (Hbox k Hk); lra|exact Hel].
  f_equal; [destruct me; ring|]. apply lsum_ext. intros [[[kx nt] xt] c] _. reflexivity.
Qed.
End C.
